(** * GJK on two boxes that do not overlap (proofs).

    Everything is computed in a frame (n, tau): n points from the Minkowski difference to the origin across a face at distance g;
    tau runs along the face, whose tau coordinates are between lo and hi. *)
From Coq Require Import Reals Lra Psatz Bool List Lia Arith.
From Verif Require Import Num NumXR Glam Transform2 Shapes2 Gjk Detect2 Spec SpecLink P_Base P_Transform P_Shapes P_Geo P_GjkShape SpecGjk P_Gjk P_Gjk2 P_Gjk3 P_Dist P_Scene Props_Dist.
Import ListNotations.
Local Open Scope R_scope.

Section Frame.
Variables (n1 n2 sg : R).
Hypothesis HU : n1 * n1 + n2 * n2 = 1.
Hypothesis HS : sg * sg = 1.
Definition fr (p : pt) : pt := (fst p * n1 - snd p * (sg * n2), fst p * n2 + snd p * (sg * n1)).
Lemma fr_dot p q : pdot (fr p) (fr q) = fst p * fst q + snd p * snd q.
Proof.
  unfold pdot, fr; cbn. transitivity (fst p * fst q * (n1 * n1 + n2 * n2) + snd p * snd q * ((sg * sg) * (n1 * n1 + n2 * n2))); [ring|].
  rewrite HU, HS. ring.
Qed.
Lemma fr_sub p q : psub (fr p) (fr q) = fr (psub p q).
Proof. apply pt_eq; cbn; ring. Qed.
Lemma fr_neg p : pneg (fr p) = fr (pneg p).
Proof. apply pt_eq; cbn; ring. Qed.
Lemma fr_cross p q : pcross (fr p) (fr q) = sg * pcross p q.
Proof.
  unfold pcross, fr; cbn. transitivity (sg * (fst p * snd q - snd p * fst q) * (n1 * n1 + n2 * n2)); [ring|]. rewrite HU. ring.
Qed.
Lemma fr_raba p q : raba (fr p) (fr q) = fr (raba p q).
Proof.
  unfold raba. rewrite fr_cross. set (k := pcross p q). apply pt_eq; cbn.
  - transitivity (- k * snd p * n1 * (sg * sg) - sg * n2 * (fst p * k)); [ring|]. rewrite HS. ring.
  - transitivity (sg * n1 * (fst p * k) - (sg * sg) * n2 * snd p * k); [ring|]. rewrite HS. ring.
Qed.
Lemma fr_abc p q r : abc_ (fr p) (fr q) (fr r) = sg * abc_ p q r.
Proof. unfold abc_. rewrite !fr_sub. apply fr_cross. Qed.
Lemma fr_abp p q r : abp (fr p) (fr q) (fr r) = fr (abp p q r).
Proof.
  unfold abp. rewrite fr_abc, !fr_sub. set (k := abc_ p q r). apply pt_eq; cbn.
  - transitivity ((fst q - fst p) * n2 * sg * k + (snd q - snd p) * k * n1 * (sg * sg)); [ring|]. rewrite HS. ring.
  - transitivity (- (fst q - fst p) * n1 * sg * k + (snd q - snd p) * k * n2 * (sg * sg)); [ring|]. rewrite HS. ring.
Qed.
Lemma fr_acp p q r : acp (fr p) (fr q) (fr r) = fr (acp p q r).
Proof.
  unfold acp. rewrite fr_abc, !fr_sub. set (k := abc_ p q r). apply pt_eq; cbn.
  - transitivity (- (fst r - fst p) * n2 * sg * k - (snd r - snd p) * k * n1 * (sg * sg)); [ring|]. rewrite HS. ring.
  - transitivity ((fst r - fst p) * n1 * sg * k - (snd r - snd p) * k * n2 * (sg * sg)); [ring|]. rewrite HS. ring.
Qed.
Lemma fr_norm p : norm (fr p) = norm p.
Proof. unfold norm. rewrite fr_dot. reflexivity. Qed.
Lemma fr_0 p : fr p = origin -> p = origin.
Proof. intro E. apply norm_0. rewrite <- fr_norm, E. apply norm_0. reflexivity. Qed.
Lemma fr_scale k p : pscale k (fr p) = fr (pscale k p).
Proof. apply pt_eq; cbn; ring. Qed.

Lemma dto2_fr b c : b <> c -> distance_to_origin (map inj [fr b; fr c]) =
  Ok (inj (fr (if Rleb (near_t b c) 0 then pneg b else if Rleb 1 (near_t b c) then pneg c else psub (pneg b) (pscale (near_t b c) (psub c b))))).
Proof.
  intro N. rewrite dto2.
  - replace (near_t (fr b) (fr c)) with (near_t b c).
    + repeat match goal with |- context [if ?x then _ else _] => destruct x end; rewrite ?fr_neg, ?fr_sub, ?fr_scale, ?fr_sub; reflexivity.
    + unfold near_t. rewrite fr_neg, fr_sub, !fr_dot. reflexivity.
  - intro E. apply N. assert (Q : psub b c = origin) by (apply fr_0; rewrite <- fr_sub, E; apply pt_eq; cbn; ring).
    apply pt_eq; [apply (f_equal fst) in Q | apply (f_equal snd) in Q]; cbn in Q; lra.
Qed.

Variables (sup : vec2 XR -> vec2 XR) (u : pt -> pt) (g lo hi : R) (P : pset).
Hypothesis Hsup : forall d, sup (inj (fr d)) = inj (fr (u d)).
Hypothesis HP : forall d, P (fr (u d)).
Hypothesis Res : resolvable P.
Hypothesis HX : forall d, 0 < fst d -> fst (u d) = - g.
Hypothesis HYlo : forall d, snd d < 0 -> snd (u d) = lo.
Hypothesis HYhi : forall d, 0 < snd d -> snd (u d) = hi.
Hypothesis HYr : forall d, lo <= snd (u d) <= hi.

Lemma up d x y : fst (u d) = x -> snd (u d) = y -> u d = (x, y).
Proof. intros <- <-. apply surjective_pairing. Qed.
Lemma fr_small d : (pdot (fr d) (fr d) < eps * eps -> fr d = origin) -> d <> origin -> direction_is_too_small (inj (fr d)) = false.
Proof. intros H N. apply not_small_ne; [exact H|]. intro E. apply N, fr_0, E. Qed.
Lemma ne_fst (p : pt) : fst p <> 0 -> p <> origin. Proof. intros H ->. apply H. reflexivity. Qed.
Lemma ne_snd (p : pt) : snd p <> 0 -> p <> origin. Proof. intros H ->. apply H. reflexivity. Qed.

(** ** The tests of the four variants in coordinates *)
Definition dot2 (p q : pt) : R := fst p * fst q + snd p * snd q.
Lemma fle0_fr p d : fle (v2dot (inj (fr p)) (inj (fr d))) f0 = Rleb (dot2 p d) 0.
Proof. change (fle (v2dot (inj (fr p)) (inj (fr d))) f0) with (Rleb (pdot (fr p) (fr d)) 0). rewrite fr_dot. reflexivity. Qed.
Lemma fle_fr p q d : fle (v2dot (inj (fr p)) (inj (fr d))) (v2dot (inj (fr q)) (inj (fr d))) = Rleb (dot2 p d) (dot2 q d).
Proof.
  change (fle (v2dot (inj (fr p)) (inj (fr d))) (v2dot (inj (fr q)) (inj (fr d)))) with (Rleb (pdot (fr p) (fr d)) (pdot (fr q) (fr d))).
  rewrite !fr_dot. reflexivity.
Qed.
Lemma better_fr p q d : sufficiently_better (v2dot (inj (fr p)) (inj (fr d))) (v2dot (inj (fr q)) (inj (fr d))) fcent =
  if Rltb 0 (dot2 q d) then Rltb (dot2 q d * (1 + 1/100)) (dot2 p d) else Rltb (dot2 q d * (1 - 1/100)) (dot2 p d).
Proof.
  change (v2dot (inj (fr p)) (inj (fr d))) with (XFin (pdot (fr p) (fr d))). change (v2dot (inj (fr q)) (inj (fr d))) with (XFin (pdot (fr q) (fr d))).
  rewrite better_test, !fr_dot. reflexivity.
Qed.
Lemma add1 a : add_point [] (inj (fr a)) = Ok ([inj (fr a)], (false, inj (fr (pneg a)))).
Proof. rewrite addp1, fr_neg. reflexivity. Qed.
Lemma add2 a b : add_point [inj (fr b)] (inj (fr a)) =
  if Rleb 0 (dot2 (psub b a) (pneg a)) then Ok ([inj (fr a); inj (fr b)], (false, inj (fr (raba (psub b a) (pneg a)))))
  else Ok ([inj (fr a); inj (fr b)], (false, inj (fr (pneg a)))).
Proof. rewrite addp2, !fr_neg, !fr_sub, fr_dot, fr_raba. reflexivity. Qed.
Lemma add3 a b c : add_point [inj (fr b); inj (fr c)] (inj (fr a)) =
  if Rleb 0 (dot2 (abp a b c) (pneg a)) then
    if Rleb 0 (dot2 (psub b a) (pneg a)) then Ok ([inj (fr a); inj (fr b)], (false, inj (fr (abp a b c))))
    else Ok ([inj (fr a); inj (fr c)], (false, inj (fr (acp a b c))))
  else if Rleb 0 (dot2 (acp a b c) (pneg a)) then Ok ([inj (fr a); inj (fr c)], (false, inj (fr (acp a b c))))
  else Ok ([inj (fr a); inj (fr b); inj (fr c)], (true, v2nan)).
Proof. rewrite addp3, !fr_neg, !fr_sub, !fr_abp, !fr_acp, !fr_dot. reflexivity. Qed.
(** one step of each variant *)
Lemma ft_stop n S q d : dot2 (u d) d <= 0 -> dot2 (u d) d <= dot2 q d -> run_ft sup (Datatypes.S n) S (inj (fr q)) (inj (fr d)) = Separated S (inj (fr d)).
Proof. intros A B. cbn [run_ft]. rewrite Hsup, fle0_fr, fle_fr, !Rleb_true by assumption. reflexivity. Qed.
Lemma ft_go n S q d S' d' : (0 < dot2 (u d) d \/ dot2 q d < dot2 (u d) d) -> add_point S (inj (fr (u d))) = Ok (S', (false, inj (fr d'))) ->
  direction_is_too_small (inj (fr d')) = false ->
  run_ft sup (Datatypes.S n) S (inj (fr q)) (inj (fr d)) = run_ft sup n S' (inj (fr (u d))) (inj (fr d')).
Proof.
  intros A EA SM. cbn [run_ft]. rewrite Hsup, fle0_fr, fle_fr.
  replace (Rleb (dot2 (u d) d) 0 && Rleb (dot2 (u d) d) (dot2 q d)) with false.
  - rewrite EA, SM. reflexivity.
  - symmetry. apply andb_false_iff. destruct A; [left | right]; apply Rleb_false; lra.
Qed.
Lemma tt_stop n S q d p : dot2 (u d) d <= 0 -> dot2 q d <= 0 -> dot2 (u d) d <= dot2 q d * (1 - 1 / 100) ->
  run_tt sup (Datatypes.S n) S (inj (fr q)) (inj (fr d)) p = Separated S (inj (fr d)).
Proof. intros A B C. cbn [run_tt]. rewrite Hsup, fle0_fr, better_fr, Rleb_true, Rltb_false, Rltb_false by lra. reflexivity. Qed.
Lemma tt_go n S q d S' d' p : dot2 q d <= 0 -> (0 < dot2 (u d) d \/ dot2 q d * (1 - 1 / 100) < dot2 (u d) d) -> add_point S (inj (fr (u d))) = Ok (S', (false, inj (fr d'))) ->
  direction_is_too_small (inj (fr d')) = false -> exists p',
  run_tt sup (Datatypes.S n) S (inj (fr q)) (inj (fr d)) p = run_tt sup n S' (inj (fr (u d))) (inj (fr d')) p'.
Proof.
  intros Z A EA SM. eexists. cbn [run_tt]. rewrite Hsup, fle0_fr, better_fr, (Rltb_false 0 (dot2 q d)) by lra.
  replace (Rleb (dot2 (u d) d) 0 && negb (Rltb (dot2 q d * (1 - 1 / 100)) (dot2 (u d) d))) with false.
  - rewrite EA, SM. cbn [andb]. reflexivity.
  - symmetry. apply andb_false_iff. destruct A; [left; apply Rleb_false | right; rewrite Rltb_true by lra; reflexivity]; lra.
Qed.
Lemma ff_stop n S d : dot2 (u d) d <= 0 -> run_ff sup (Datatypes.S n) S (inj (fr d)) = Separated S (inj (fr d)).
Proof. intros A. cbn [run_ff]. rewrite Hsup, fle0_fr, Rleb_true by assumption. reflexivity. Qed.
Lemma ff_go n S d S' d' : 0 < dot2 (u d) d -> add_point S (inj (fr (u d))) = Ok (S', (false, inj (fr d'))) ->
  direction_is_too_small (inj (fr d')) = false -> run_ff sup (Datatypes.S n) S (inj (fr d)) = run_ff sup n S' (inj (fr d')).
Proof. intros A EA SM. cbn [run_ff]. rewrite Hsup, fle0_fr, Rleb_false by lra. rewrite EA, SM. reflexivity. Qed.
Lemma tf_stop n S d : dot2 (u d) d <= 0 -> run_tf sup (Datatypes.S n) S (inj (fr d)) = Separated S (inj (fr d)).
Proof. intros A. cbn [run_tf]. rewrite Hsup, fle0_fr, Rleb_true by assumption. reflexivity. Qed.
Lemma tf_go n S d S' d' : 0 < dot2 (u d) d -> add_point S (inj (fr (u d))) = Ok (S', (false, inj (fr d'))) ->
  direction_is_too_small (inj (fr d')) = false -> run_tf sup (Datatypes.S n) S (inj (fr d)) = run_tf sup n S' (inj (fr d')).
Proof. intros A EA SM. cbn [run_tf]. rewrite Hsup, fle0_fr, Rleb_false by lra. rewrite EA, SM. reflexivity. Qed.
Lemma neg_ok a b : P (fr a) -> a <> origin -> b = pneg a -> direction_is_too_small (inj (fr b)) = false.
Proof.
  intros Pa N ->. apply fr_small; [rewrite <- fr_neg; apply (res_neg P (fr a) Res Pa)|].
  intro E. apply N. rewrite <- (pneg_pneg a), E. apply pneg_origin.
Qed.
Lemma raba_ok a b d : P (fr a) -> P (fr b) -> d = raba (psub b a) (pneg a) -> d <> origin -> direction_is_too_small (inj (fr d)) = false.
Proof.
  intros Pa Pb -> N. apply fr_small; [|exact N]. rewrite <- fr_raba, <- fr_sub, <- fr_neg. apply (res_raba P (fr a) (fr b) Res Pa Pb).
Qed.
Lemma abp_ok a b c d : P (fr a) -> P (fr b) -> P (fr c) -> d = abp a b c -> d <> origin -> direction_is_too_small (inj (fr d)) = false.
Proof. intros Pa Pb Pc -> N. apply fr_small; [|exact N]. rewrite <- fr_abp. apply (res_abp P _ _ _ Res Pa Pb Pc). Qed.
Lemma acp_ok a b c d : P (fr a) -> P (fr b) -> P (fr c) -> d = acp a b c -> d <> origin -> direction_is_too_small (inj (fr d)) = false.
Proof. intros Pa Pb Pc -> N. apply fr_small; [|exact N]. rewrite <- fr_acp. apply (res_acp P _ _ _ Res Pa Pb Pc). Qed.

(** ** Apart: g > 0 *)
Lemma dto_span y1 y2 : y2 <= 0 < y1 -> distance_to_origin (map inj [fr (- g, y2); fr (- g, y1)]) = Ok (inj (fr (g, 0))).
Proof.
  intro H. rewrite dto2_fr by (intro E; injection E as E; lra).
  assert (T : near_t (- g, y2) (- g, y1) = - y2 / (y1 - y2)) by (unfold near_t, pdot, psub, pneg; cbn; field; split; nra).
  rewrite T. destruct (Rleb_spec (- y2 / (y1 - y2)) 0) as [Q|Q].
  - assert (y2 = 0). { assert (- y2 <= 0); [|lra]. apply Rmult_le_compat_r with (r := y1 - y2) in Q; [|lra]. unfold Rdiv in Q. rewrite Rmult_assoc, Rinv_l in Q; lra. }
    subst. do 3 f_equal. apply pt_eq; cbn; lra.
  - destruct (Rleb_spec 1 (- y2 / (y1 - y2))) as [Q2|Q2].
    + exfalso. apply Rmult_le_compat_r with (r := y1 - y2) in Q2; [|lra]. unfold Rdiv in Q2. rewrite Rmult_assoc, Rinv_l in Q2; lra.
    + do 3 f_equal. apply pt_eq; cbn; field; lra.
Qed.
Lemma dto_corner y1 y2 : 0 < y2 < y1 -> distance_to_origin (map inj [fr (- g, y2); fr (- g, y1)]) = Ok (inj (fr (g, - y2))).
Proof.
  intro H. rewrite dto2_fr by (intro E; injection E as E; lra).
  assert (T : near_t (- g, y2) (- g, y1) = - y2 / (y1 - y2)) by (unfold near_t, pdot, psub, pneg; cbn; field; split; nra).
  rewrite T, Rleb_true.
  - do 3 f_equal. apply pt_eq; cbn; lra.
  - apply Rmult_le_reg_r with (y1 - y2); [lra|]. unfold Rdiv. rewrite Rmult_assoc, Rinv_l; lra.
Qed.
Lemma dto_one a : distance_to_origin (map inj [fr a]) = Ok (inj (fr (pneg a))).
Proof. rewrite dto1, fr_neg. reflexivity. Qed.
Lemma sep_dir2 y1 : raba (psub (- g, y1) (- g, lo)) (pneg (- g, lo)) = ((y1 - lo) * (y1 - lo) * g, 0).
Proof. unfold raba, pcross, psub, pneg; cbn. apply pt_eq; cbn; ring. Qed.

Lemma sep_ft d0 : 0 < g -> 0 < fst d0 -> 0 <= snd (u d0) -> exists S D,
  start_ft sup (inj (fr d0)) = Separated (map inj S) D /\ distance_to_origin (map inj S) = Ok (inj (fr (g, - Rmax lo 0))).
Proof.
  intros G H0 Y0. unfold start_ft. rewrite Hsup, (add1 (u d0)). set (y1 := snd (u d0)) in * .
  assert (E1 : u d0 = (- g, y1)) by (apply up; [apply HX, H0 | reflexivity]). pose proof (HP d0) as P1. pose proof (HYr d0) as R1. fold y1 in R1. rewrite E1 in * .
  set (d1 := pneg (- g, y1)). pose proof (HX d1 ltac:(cbn; lra)) as X2. pose proof (HP d1) as P2. pose proof (HYr d1) as R2.
  destruct (Req_dec y1 0) as [Z|Z].
  - exists [fr (- g, y1)], (inj (fr d1)). split.
    + apply ft_stop; unfold dot2; rewrite X2; unfold d1; cbn; rewrite Z; nra.
    + rewrite dto_one. do 3 f_equal. unfold Rmax. destruct (Rle_dec lo 0); apply pt_eq; cbn; lra.
  - pose proof (HYlo d1 ltac:(cbn; lra)) as Y2. assert (E2 : u d1 = (- g, lo)) by (apply up; assumption). rewrite E2 in * .
    destruct (Req_dec lo y1) as [L|L].
    + exists [fr (- g, y1)], (inj (fr d1)). split.
      * apply ft_stop; rewrite E2; unfold dot2, d1; cbn; rewrite L; nra.
      * rewrite dto_one. do 3 f_equal. rewrite Rmax_left by lra. apply pt_eq; cbn; lra.
    + assert (GO : 0 < dot2 (u d1) d1 \/ dot2 (- g, y1) d1 < dot2 (u d1) d1) by (right; rewrite E2; unfold dot2, d1; cbn; nra).
      pose proof (add2 (- g, lo) (- g, y1)) as EA. rewrite sep_dir2 in EA.
      destruct (Rle_dec lo 0) as [Q|Q].
      * rewrite Rleb_true in EA by (unfold dot2; cbn; nra).
        set (d2 := ((y1 - lo) * (y1 - lo) * g, 0)) in * .
        assert (D2 : 0 < fst d2) by (cbn; apply Rmult_lt_0_compat; [nra | exact G]).
        exists [fr (- g, lo); fr (- g, y1)], (inj (fr d2)). split.
        -- rewrite (ft_go 19 _ (- g, y1) d1 _ d2 GO ltac:(rewrite E2; exact EA)).
           ++ rewrite E2. apply ft_stop; unfold dot2; rewrite (HX d2 D2); cbn; nra.
           ++ apply (raba_ok (- g, lo) (- g, y1)); try assumption; [unfold d2; symmetry; apply sep_dir2 | apply ne_fst; lra].
        -- rewrite dto_span by lra. rewrite Rmax_right by lra. do 3 f_equal. apply pt_eq; cbn; lra.
      * rewrite Rleb_false in EA by (unfold dot2; cbn; nra).
        set (d2 := pneg (- g, lo)) in * .
        exists [fr (- g, lo); fr (- g, y1)], (inj (fr d2)). split.
        -- rewrite (ft_go 19 _ (- g, y1) d1 _ d2 GO ltac:(rewrite E2; exact EA)).
           ++ rewrite E2. apply ft_stop; unfold dot2; rewrite (HX d2), (HYlo d2) by (cbn; lra); cbn; nra.
           ++ apply (neg_ok (- g, lo)); [exact P2 | apply ne_fst; cbn; lra | reflexivity].
        -- rewrite dto_corner by lra. rewrite Rmax_left by lra. reflexivity.
Qed.
(** the tolerant variant may stop at the first point, if that is within 1% *)
Lemma sep_tt d0 : 0 < g -> 0 < fst d0 -> 0 <= snd (u d0) -> exists S D,
  start_tt sup (inj (fr d0)) = Separated (map inj S) D /\
  (distance_to_origin (map inj S) = Ok (inj (fr (g, - Rmax lo 0))) \/
   exists p, S = [fr p] /\ dot2 (u (pneg p)) (pneg p) <= 99 / 100 * dot2 p (pneg p)).
Proof.
  intros G H0 Y0. unfold start_tt. rewrite Hsup, (add1 (u d0)). set (y1 := snd (u d0)) in * .
  assert (E1 : u d0 = (- g, y1)) by (apply up; [apply HX, H0 | reflexivity]). pose proof (HP d0) as P1. pose proof (HYr d0) as R1. fold y1 in R1. rewrite E1 in * .
  set (d1 := pneg (- g, y1)). pose proof (HX d1 ltac:(cbn; lra)) as X2. pose proof (HP d1) as P2. pose proof (HYr d1) as R2.
  assert (L1 : dot2 (- g, y1) d1 = - (g * g) - y1 * y1) by (unfold dot2, d1; cbn; ring).
  assert (L1' : dot2 (- g, y1) d1 <= 0) by (rewrite L1; nra).
  destruct (Rle_dec (dot2 (u d1) d1) (dot2 (- g, y1) d1 * (1 - 1 / 100))) as [ST|ST].
  { exists [fr (- g, y1)], (inj (fr d1)). split; [apply tt_stop; lra|]. right. exists (- g, y1). split; [reflexivity|]. fold d1. lra. }
  apply Rnot_le_lt in ST.
  destruct (Req_dec y1 0) as [Z|Z].
  - exfalso. unfold dot2 in ST at 2. rewrite X2 in ST. unfold d1 in ST at 2 3. cbn in ST. rewrite L1 in ST. rewrite Z in ST. nra.
  - pose proof (HYlo d1 ltac:(cbn; lra)) as Y2. assert (E2 : u d1 = (- g, lo)) by (apply up; assumption). rewrite E2 in * .
    assert (L : lo <> y1). { intro Q. rewrite Q in ST. rewrite L1 in ST. nra. }
    assert (GO : 0 < dot2 (u d1) d1 \/ dot2 (- g, y1) d1 * (1 - 1 / 100) < dot2 (u d1) d1) by (right; rewrite E2; exact ST).
      pose proof (add2 (- g, lo) (- g, y1)) as EA. rewrite sep_dir2 in EA.
      destruct (Rle_dec lo 0) as [Q|Q].
      * rewrite Rleb_true in EA by (unfold dot2; cbn; nra).
        set (d2 := ((y1 - lo) * (y1 - lo) * g, 0)) in * .
        assert (D2 : 0 < fst d2) by (cbn; apply Rmult_lt_0_compat; [nra | exact G]).
        exists [fr (- g, lo); fr (- g, y1)], (inj (fr d2)). split.
        -- destruct (tt_go 19 [inj (fr (- g, y1))] (- g, y1) d1 _ d2 true L1' GO ltac:(rewrite E2; exact EA)) as (p' & ->).
           ++ apply (raba_ok (- g, lo) (- g, y1)); try assumption; [unfold d2; symmetry; apply sep_dir2 | apply ne_fst; lra].
           ++ rewrite E2. assert (0 < g * fst d2) by (apply Rmult_lt_0_compat; assumption).
              apply tt_stop; unfold dot2; rewrite ?(HX d2 D2); change (snd d2) with 0; cbn [fst snd]; lra.
        -- left. rewrite dto_span by lra. rewrite Rmax_right by lra. do 3 f_equal. apply pt_eq; cbn; lra.
      * rewrite Rleb_false in EA by (unfold dot2; cbn; nra).
        set (d2 := pneg (- g, lo)) in * .
        exists [fr (- g, lo); fr (- g, y1)], (inj (fr d2)). split.
        -- destruct (tt_go 19 [inj (fr (- g, y1))] (- g, y1) d1 _ d2 true L1' GO ltac:(rewrite E2; exact EA)) as (p' & ->).
           ++ apply (neg_ok (- g, lo)); [exact P2 | apply ne_fst; cbn; lra | reflexivity].
           ++ rewrite E2. apply tt_stop; unfold dot2; rewrite ?(HX d2), ?(HYlo d2) by (cbn; lra); cbn; nra.
        -- left. rewrite dto_corner by lra. rewrite Rmax_left by lra. reflexivity.
Qed.

(** ** Touching: g = 0 and the face's range contains the foot of the origin; a search along the face ends strictly inside *)
Hypothesis HX0 : forall d, fst d = 0 -> snd d <> 0 -> fst (u d) < - g.
Section Touch.
Hypothesis G0 : g = 0.
Hypothesis L0 : lo <= 0.
Variables (y1 : R).
Hypothesis Y1 : 0 < y1.
Hypothesis P1 : P (fr (0, y1)).
Let d1 := pneg (0, y1).
Let e := - fst (u d1).
Lemma t_e : 0 < e.
Proof. unfold e. pose proof (HX0 d1 ltac:(cbn; lra) ltac:(cbn; lra)). lra. Qed.
Lemma t_p2 : u d1 = (- e, lo).
Proof. apply up; [unfold e; ring | apply HYlo; cbn; lra]. Qed.
Lemma t_P2 : P (fr (- e, lo)). Proof. rewrite <- t_p2. apply HP. Qed.
Definition d2t : pt := ((y1 - lo) * y1 * e, - (e * e * y1)).
Lemma t_add2 : add_point [inj (fr (0, y1))] (inj (fr (u d1))) = Ok ([inj (fr (- e, lo)); inj (fr (0, y1))], (false, inj (fr d2t))).
Proof.
  pose proof t_e as E. rewrite t_p2, add2. rewrite Rleb_true.
  - do 5 f_equal. unfold raba, pcross, d2t. apply pt_eq; cbn; ring.
  - unfold dot2; cbn. nra.
Qed.
Lemma t_x2 : 0 < fst d2t. Proof. pose proof t_e. cbn. apply Rmult_lt_0_compat; [nra | assumption]. Qed.
Lemma t_y2 : snd d2t < 0. Proof. pose proof t_e. cbn. assert (0 < e * e) by nra. nra. Qed.
Lemma t_s2 : direction_is_too_small (inj (fr d2t)) = false.
Proof.
  apply (raba_ok (- e, lo) (0, y1)); [exact t_P2 | exact P1 | | apply ne_fst; pose proof t_x2; lra].
  unfold raba, pcross, d2t. apply pt_eq; cbn; ring.
Qed.
Lemma t_p3 : u d2t = (0, lo).
Proof. apply up; [rewrite (HX _ t_x2); lra | apply HYlo, t_y2]. Qed.
Lemma t_P3 : P (fr (0, lo)). Proof. rewrite <- t_p3. apply HP. Qed.
Definition d3t : pt := if Rltb lo 0 then (e * ((y1 - lo) * (y1 - lo)), 0) else (0, - (e * e * y1)).
Definition S3t : list pt := if Rltb lo 0 then [(0, lo); (0, y1)] else [(0, lo); (- e, lo)].
Lemma t_add3 : add_point [inj (fr (- e, lo)); inj (fr (0, y1))] (inj (fr (u d2t))) =
  Ok (map inj (map fr S3t), (false, inj (fr d3t))).
Proof.
  pose proof t_e as E. assert (E2 : 0 < e * e) by nra. rewrite t_p3, add3. unfold S3t, d3t. destruct (Rltb_spec lo 0) as [Q|Q].
  - rewrite Rleb_false, Rleb_true.
    + do 4 f_equal. unfold acp, abc_, pcross, psub. f_equal. apply pt_eq; cbn; ring.
    + unfold dot2, acp, abc_, pcross, psub, pneg; cbn. nra.
    + unfold dot2, abp, abc_, pcross, psub, pneg; cbn.
      replace ((lo - lo) * ((- e - 0) * (y1 - lo) - (lo - lo) * (0 - 0)) * - 0 + - (- e - 0) * ((- e - 0) * (y1 - lo) - (lo - lo) * (0 - 0)) * - lo) with (e * e * ((y1 - lo) * lo)) by ring.
      assert ((y1 - lo) * lo < 0) by nra. nra.
  - assert (lo = 0) by lra. rewrite !Rleb_true.
    + do 4 f_equal. unfold abp, abc_, pcross, psub. f_equal. apply pt_eq; cbn; rewrite H; ring.
    + unfold dot2, psub, pneg; cbn. rewrite H. lra.
    + unfold dot2, abp, abc_, pcross, psub, pneg; cbn. rewrite H. lra.
Qed.
Lemma t_s3 : direction_is_too_small (inj (fr d3t)) = false.
Proof.
  pose proof t_e as E. assert (E2 : 0 < e * e) by nra. unfold d3t. destruct (Rltb_spec lo 0) as [Q|Q].
  - apply (acp_ok (0, lo) (- e, lo) (0, y1)); [exact t_P3 | exact t_P2 | exact P1 | | apply ne_fst; cbn; assert (0 < (y1 - lo) * (y1 - lo)) by nra; nra].
    unfold acp, abc_, pcross, psub. apply pt_eq; cbn; ring.
  - assert (lo = 0) by lra. apply (abp_ok (0, lo) (- e, lo) (0, y1)); [exact t_P3 | exact t_P2 | exact P1 | | apply ne_snd; cbn; nra].
    unfold abp, abc_, pcross, psub. apply pt_eq; cbn; rewrite H; ring.
Qed.
Lemma t_f3 : dot2 (u d3t) d3t = 0 /\ dot2 (u d2t) d3t = 0.
Proof.
  pose proof t_e as E. assert (E2 : 0 < e * e) by nra. assert (E3 : 0 < e * e * y1) by (apply Rmult_lt_0_compat; assumption). rewrite t_p3. unfold d3t. destruct (Rltb_spec lo 0) as [Q|Q].
  - split; unfold dot2; [rewrite HX by (cbn; apply Rmult_lt_0_compat; [exact E | nra]); rewrite G0|]; cbn; ring.
  - assert (lo = 0) by lra. split; unfold dot2; [rewrite HYlo by (cbn; lra)|]; cbn; rewrite H; ring.
Qed.
Lemma t_d3 : distance_to_origin (map inj (map fr S3t)) = Ok (inj (fr (0, 0))).
Proof.
  pose proof t_e as E. unfold S3t. destruct (Rltb_spec lo 0) as [Q|Q].
  - change (distance_to_origin (map inj [fr (0, lo); fr (0, y1)]) = Ok (inj (fr (0, 0)))). pose proof (dto_span y1 lo ltac:(lra)) as D. rewrite G0, Ropp_0 in D. exact D.
  - assert (lo = 0) by lra. change (distance_to_origin (map inj [fr (0, lo); fr (- e, lo)]) = Ok (inj (fr (0, 0)))).
    rewrite dto2_fr by (intro K; injection K as K; lra).
    replace (near_t (0, lo) (- e, lo)) with 0; [|unfold near_t, pdot, psub, pneg; cbn; rewrite H; field; lra].
    rewrite Rleb_true by lra. do 3 f_equal. apply pt_eq; cbn; lra.
Qed.
Lemma t_f1 : dot2 (u d1) d1 = - (y1 * lo) /\ dot2 (0, y1) d1 = - (y1 * y1).
Proof. rewrite t_p2. unfold dot2, d1; cbn. split; ring. Qed.
Lemma t_f2 : dot2 (u d2t) d2t = - (e * e * y1 * lo) /\ dot2 (u d1) d2t = - (e * e * y1 * y1).
Proof. rewrite t_p2, t_p3. unfold dot2, d2t; cbn. split; ring. Qed.
Lemma t_order : dot2 (0, y1) d1 < 0 /\ 0 <= dot2 (u d1) d1 /\ dot2 (u d1) d2t < 0 /\ 0 <= dot2 (u d2t) d2t.
Proof.
  pose proof t_e as E. destruct t_f1 as [-> ->]. destruct t_f2 as [-> ->]. assert (0 < e * e * y1) by (apply Rmult_lt_0_compat; nra).
  repeat split; nra.
Qed.
Lemma t_ft : run_ft sup 20 [inj (fr (0, y1))] (inj (fr (0, y1))) (inj (fr d1)) = Separated (map inj (map fr S3t)) (inj (fr d3t)).
Proof.
  destruct t_order as (O1 & O2 & O3 & O4). destruct t_f3 as (F1 & F2).
  rewrite (ft_go 19 _ (0, y1) d1 _ d2t ltac:(right; lra) t_add2 t_s2).
  rewrite (ft_go 18 _ (u d1) d2t _ d3t ltac:(right; lra) t_add3 t_s3).
  apply ft_stop; lra.
Qed.
Lemma t_tt : run_tt sup 20 [inj (fr (0, y1))] (inj (fr (0, y1))) (inj (fr d1)) true = Separated (map inj (map fr S3t)) (inj (fr d3t)).
Proof.
  destruct t_order as (O1 & O2 & O3 & O4). destruct t_f3 as (F1 & F2).
  destruct (tt_go 19 _ (0, y1) d1 _ d2t true ltac:(lra) ltac:(right; lra) t_add2 t_s2) as (p1 & ->).
  destruct (tt_go 18 _ (u d1) d2t _ d3t p1 ltac:(lra) ltac:(right; lra) t_add3 t_s3) as (p2 & ->).
  apply tt_stop; lra.
Qed.
Lemma t_ff : exists S D, run_ff sup 19 [inj (fr (0, y1))] (inj (fr d1)) = Separated S D.
Proof.
  destruct t_order as (O1 & O2 & O3 & O4). destruct t_f1 as (F1 & _). destruct t_f2 as (F2 & _). destruct t_f3 as (F3 & _). pose proof t_e as E.
  destruct (Req_dec lo 0) as [Z|Z].
  - do 2 eexists. apply ff_stop. rewrite F1, Z. lra.
  - assert (0 < e * e * y1) by (apply Rmult_lt_0_compat; nra).
    do 2 eexists. rewrite (ff_go 18 _ d1 _ d2t ltac:(rewrite F1; nra) t_add2 t_s2). rewrite (ff_go 17 _ d2t _ d3t ltac:(rewrite F2; nra) t_add3 t_s3). apply ff_stop. lra.
Qed.
Lemma t_tf : exists S D, run_tf sup 19 [inj (fr (0, y1))] (inj (fr d1)) = Separated S D.
Proof.
  destruct t_order as (O1 & O2 & O3 & O4). destruct t_f1 as (F1 & _). destruct t_f2 as (F2 & _). destruct t_f3 as (F3 & _). pose proof t_e as E.
  destruct (Req_dec lo 0) as [Z|Z].
  - do 2 eexists. apply tf_stop. rewrite F1, Z. lra.
  - assert (0 < e * e * y1) by (apply Rmult_lt_0_compat; nra).
    do 2 eexists. rewrite (tf_go 18 _ d1 _ d2t ltac:(rewrite F1; nra) t_add2 t_s2). rewrite (tf_go 17 _ d2t _ d3t ltac:(rewrite F2; nra) t_add3 t_s3). apply tf_stop. lra.
Qed.
End Touch.

Lemma touch_ft d0 : g = 0 -> lo <= 0 -> 0 < fst d0 -> 0 <= snd (u d0) -> exists S D,
  start_ft sup (inj (fr d0)) = Separated (map inj S) D /\ distance_to_origin (map inj S) = Ok (inj (fr (0, 0))).
Proof.
  intros G L H0 Y0. unfold start_ft. rewrite Hsup, (add1 (u d0)). set (y1 := snd (u d0)) in * .
  assert (E1 : u d0 = (0, y1)) by (apply up; [rewrite (HX _ H0); lra | reflexivity]). pose proof (HP d0) as P1. rewrite E1 in * .
  destruct (Req_dec y1 0) as [Z|Z].
  - exists [fr (0, y1)], (inj (fr (pneg (0, y1)))). split.
    + apply ft_stop; unfold dot2; cbn; rewrite Z; lra.
    + rewrite dto_one. do 3 f_equal. apply pt_eq; cbn; lra.
  - exists (map fr (S3t y1)), (inj (fr (d3t y1))). split; [apply (t_ft G L y1 ltac:(lra) P1) | apply (t_d3 G L y1 ltac:(lra))].
Qed.
Lemma touch_tt d0 : g = 0 -> lo <= 0 -> 0 < fst d0 -> 0 <= snd (u d0) -> exists S D,
  start_tt sup (inj (fr d0)) = Separated (map inj S) D /\ distance_to_origin (map inj S) = Ok (inj (fr (0, 0))).
Proof.
  intros G L H0 Y0. unfold start_tt. rewrite Hsup, (add1 (u d0)). set (y1 := snd (u d0)) in * .
  assert (E1 : u d0 = (0, y1)) by (apply up; [rewrite (HX _ H0); lra | reflexivity]). pose proof (HP d0) as P1. rewrite E1 in * .
  destruct (Req_dec y1 0) as [Z|Z].
  - exists [fr (0, y1)], (inj (fr (pneg (0, y1)))). split.
    + apply tt_stop; unfold dot2; cbn; rewrite Z; lra.
    + rewrite dto_one. do 3 f_equal. apply pt_eq; cbn; lra.
  - exists (map fr (S3t y1)), (inj (fr (d3t y1))). split; [apply (t_tt G L y1 ltac:(lra) P1) | apply (t_d3 G L y1 ltac:(lra))].
Qed.
Lemma touch_ff d0 : g = 0 -> lo <= 0 -> 0 < fst d0 -> 0 <= snd (u d0) -> exists S D, run_ff sup 20 [] (inj (fr d0)) = Separated S D.
Proof.
  intros G L H0 Y0. set (y1 := snd (u d0)) in * .
  assert (E1 : u d0 = (0, y1)) by (apply up; [rewrite (HX _ H0); lra | reflexivity]). pose proof (HP d0) as P1.
  destruct (Rle_dec (dot2 (u d0) d0) 0) as [Q|Q]; [do 2 eexists; apply ff_stop, Q|]. apply Rnot_le_lt in Q.
  assert (Z : y1 <> 0) by (intro Z; rewrite E1 in Q; unfold dot2 in Q; cbn in Q; rewrite Z in Q; lra).
  pose proof (add1 (u d0)) as A. rewrite E1 in P1.
  rewrite (ff_go 19 [] d0 _ _ Q A).
  - rewrite E1. apply (t_ff G L y1 ltac:(lra) P1).
  - rewrite E1. apply (neg_ok (0, y1)); [exact P1 | apply ne_snd; exact Z | reflexivity].
Qed.
Lemma touch_tf d0 : g = 0 -> lo <= 0 -> 0 < fst d0 -> 0 <= snd (u d0) -> exists S D, run_tf sup 20 [] (inj (fr d0)) = Separated S D.
Proof.
  intros G L H0 Y0. set (y1 := snd (u d0)) in * .
  assert (E1 : u d0 = (0, y1)) by (apply up; [rewrite (HX _ H0); lra | reflexivity]). pose proof (HP d0) as P1.
  destruct (Rle_dec (dot2 (u d0) d0) 0) as [Q|Q]; [do 2 eexists; apply tf_stop, Q|]. apply Rnot_le_lt in Q.
  assert (Z : y1 <> 0) by (intro Z; rewrite E1 in Q; unfold dot2 in Q; cbn in Q; rewrite Z in Q; lra).
  pose proof (add1 (u d0)) as A. rewrite E1 in P1.
  rewrite (tf_go 19 [] d0 _ _ Q A).
  - rewrite E1. apply (t_tf G L y1 ltac:(lra) P1).
  - rewrite E1. apply (neg_ok (0, y1)); [exact P1 | apply ne_snd; exact Z | reflexivity].
Qed.
End Frame.

(** ** The same for a face of any of the four orientations *)
Section Face.
Variables (n1 n2 g lo hi : R) (M : pset) (sup : vec2 XR -> vec2 XR) (s : pt -> pt) (P : pset).
Hypothesis HU : n1 * n1 + n2 * n2 = 1.
Hypothesis Hsup : forall d, sup (inj d) = inj (s d).
Hypothesis HP : forall d, P (s d).
Hypothesis Res : resolvable P.
Hypothesis HM : forall m, M m -> pdot (n1, n2) m <= - g /\ lo <= pcross (n1, n2) m <= hi.
Hypothesis Hfar : forall d, is_farthest M d (s d).
Hypothesis HX : forall d, 0 < pdot (n1, n2) d -> pdot (n1, n2) (s d) = - g.
Hypothesis HX0 : forall d, pdot (n1, n2) d = 0 -> pcross (n1, n2) d <> 0 -> pdot (n1, n2) (s d) < - g.
Hypothesis HYlo : forall d, pcross (n1, n2) d < 0 -> pcross (n1, n2) (s d) = lo.
Hypothesis HYhi : forall d, 0 < pcross (n1, n2) d -> pcross (n1, n2) (s d) = hi.
Definition un (sg : R) (p : pt) : pt := (pdot (n1, n2) p, sg * pcross (n1, n2) p).
Lemma fr_un sg p : sg * sg = 1 -> fr n1 n2 sg (un sg p) = p.
Proof.
  intro S. unfold fr, un, pdot, pcross; cbn. apply pt_eq; cbn.
  - transitivity (fst p * (n1 * n1 + (sg * sg) * (n2 * n2)) + snd p * (n1 * n2) * (1 - sg * sg)); [ring|]. rewrite S, Rmult_1_l, HU. ring.
  - transitivity (snd p * (n2 * n2 + (sg * sg) * (n1 * n1)) + fst p * (n1 * n2) * (1 - sg * sg)); [ring|]. rewrite S, Rmult_1_l, (Rplus_comm (n2 * n2)), HU. ring.
Qed.
Lemma dot_fr sg d : sg * sg = 1 -> pdot (n1, n2) (fr n1 n2 sg d) = fst d.
Proof. intro S. unfold fr, pdot; cbn. transitivity (fst d * (n1 * n1 + n2 * n2)); [ring|]. rewrite HU. ring. Qed.
Lemma cross_fr sg d : sg * sg = 1 -> pcross (n1, n2) (fr n1 n2 sg d) = sg * snd d.
Proof. intro S. unfold fr, pcross; cbn. transitivity (sg * snd d * (n1 * n1 + n2 * n2)); [ring|]. rewrite HU. ring. Qed.
Lemma u_ok sg d : sg * sg = 1 -> sup (inj (fr n1 n2 sg d)) = inj (fr n1 n2 sg (un sg (s (fr n1 n2 sg d)))).
Proof. intro S. rewrite Hsup, fr_un by exact S. reflexivity. Qed.
(** the nearest coordinate of the face *)
Lemma sign_choice (y : R) : exists sg, (sg = 1 \/ sg = -1) /\ 0 <= sg * y.
Proof. destruct (Rle_dec 0 y); [exists 1 | exists (-1)]; split; auto; lra. Qed.
Definition lo_of (sg : R) : R := if Rltb sg 0 then - hi else lo.
Definition hi_of (sg : R) : R := if Rltb sg 0 then - lo else hi.
Lemma best_face sg m : (sg = 1 \/ sg = -1) -> 0 <= g -> M m -> norm (fr n1 n2 sg (g, - Rmax (lo_of sg) 0)) <= norm m.
Proof.
  intros S G Hm. assert (SS : sg * sg = 1) by (destruct S; subst; lra). destruct (HM m Hm) as [A [B C]].
  rewrite (fr_norm n1 n2 sg HU SS). rewrite <- (fr_un sg m SS) at 1. rewrite (fr_norm n1 n2 sg HU SS).
  unfold norm. apply sqrt_le_1_alt. unfold pdot at 1 2; unfold un; cbn [fst snd].
  assert (Q1 : g * g <= pdot (n1, n2) m * pdot (n1, n2) m) by nra.
  assert (Q2 : Rmax (lo_of sg) 0 * Rmax (lo_of sg) 0 <= (sg * pcross (n1, n2) m) * (sg * pcross (n1, n2) m)).
  { unfold lo_of, Rmax. destruct S as [-> | ->].
    - rewrite Rltb_false by lra. destruct (Rle_dec lo 0); nra.
    - rewrite Rltb_true by lra. destruct (Rle_dec (- hi) 0); nra. }
  lra.
Qed.
Lemma face_hyps sg : (sg = 1 \/ sg = -1) -> let u := fun d => un sg (s (fr n1 n2 sg d)) in
  (forall d, P (fr n1 n2 sg (u d))) /\ (forall d, 0 < fst d -> fst (u d) = - g) /\ (forall d, snd d < 0 -> snd (u d) = lo_of sg) /\
  (forall d, 0 < snd d -> snd (u d) = hi_of sg) /\ (forall d, lo_of sg <= snd (u d) <= hi_of sg) /\
  (forall d, fst d = 0 -> snd d <> 0 -> fst (u d) < - g).
Proof.
  intros S u. assert (SS : sg * sg = 1) by (destruct S; subst; lra).
  assert (Rg : forall d, lo <= pcross (n1, n2) (s d) <= hi) by (intro d; apply (HM _ (proj1 (Hfar d)))).
  unfold u, un; cbn [fst snd]. repeat split; intros.
  - change (P (fr n1 n2 sg (un sg (s (fr n1 n2 sg d))))). rewrite fr_un by exact SS. apply HP.
  - apply HX. rewrite dot_fr by exact SS. assumption.
  - unfold lo_of. destruct S as [-> | ->].
    + rewrite Rltb_false by lra. rewrite HYlo; [ring|]. rewrite cross_fr by lra. lra.
    + rewrite Rltb_true by lra. rewrite HYhi; [ring|]. rewrite cross_fr by lra. lra.
  - unfold hi_of. destruct S as [-> | ->].
    + rewrite Rltb_false by lra. rewrite HYhi; [ring|]. rewrite cross_fr by lra. lra.
    + rewrite Rltb_true by lra. rewrite HYlo; [ring|]. rewrite cross_fr by lra. lra.
  - pose proof (Rg (fr n1 n2 sg d)). unfold lo_of. destruct S as [-> | ->]; [rewrite Rltb_false by lra | rewrite Rltb_true by lra]; lra.
  - pose proof (Rg (fr n1 n2 sg d)). unfold hi_of. destruct S as [-> | ->]; [rewrite Rltb_false by lra | rewrite Rltb_true by lra]; lra.
  - apply HX0; [rewrite dot_fr by exact SS; assumption|]. rewrite cross_fr by exact SS. destruct S; subst; lra.
Qed.
Lemma touch_lo sg : lo <= 0 <= hi -> lo_of sg <= 0.
Proof. intro H. unfold lo_of. destruct (Rltb sg 0); lra. Qed.

Variable d0 : pt.
Hypothesis D0 : 0 < pdot (n1, n2) d0.
Hypothesis GT : 0 < g \/ (g = 0 /\ lo <= 0 <= hi).
Lemma face_ft : exists S D w, start_ft sup (inj d0) = Separated (map inj S) D /\ distance_to_origin (map inj S) = Ok (inj w) /\
  forall m, M m -> norm w <= norm m.
Proof.
  destruct (sign_choice (pcross (n1, n2) (s d0))) as (sg & S & Y0). assert (SS : sg * sg = 1) by (destruct S; subst; lra).
  destruct (face_hyps sg S) as (H1 & H2 & H3 & H4 & H5 & H6).
  set (u := fun d => un sg (s (fr n1 n2 sg d))) in * .
  rewrite <- (fr_un sg d0 SS).
  assert (X : 0 < fst (un sg d0)) by exact D0. assert (Y : 0 <= snd (u (un sg d0))) by (unfold u; rewrite fr_un by exact SS; exact Y0).
  destruct GT as [G|[G L]].
  - destruct (sep_ft n1 n2 sg HU SS sup u g (lo_of sg) (hi_of sg) P (fun d => u_ok sg d SS) H1 Res H2 H3 H5 (un sg d0) G X Y) as (Sx & D & E & W).
    do 3 eexists. split; [exact E|]. split; [exact W|]. intros m Hm. apply best_face; try assumption. lra.
  - destruct (touch_ft n1 n2 sg HU SS sup u g (lo_of sg) P (fun d => u_ok sg d SS) H1 Res H2 H3 H6 (un sg d0) G (touch_lo sg L) X Y) as (Sx & D & E & W).
    do 3 eexists. split; [exact E|]. split; [exact W|]. intros m Hm. replace (norm (fr n1 n2 sg (0, 0))) with 0; [apply norm_nonneg|].
    symmetry. apply norm_0. apply pt_eq; cbn; ring.
Qed.
Lemma face_tt : exists S D w, start_tt sup (inj d0) = Separated (map inj S) D /\ distance_to_origin (map inj S) = Ok (inj w) /\
  forall m, M m -> 99 / 100 * norm w <= norm m.
Proof.
  destruct (sign_choice (pcross (n1, n2) (s d0))) as (sg & S & Y0). assert (SS : sg * sg = 1) by (destruct S; subst; lra).
  destruct (face_hyps sg S) as (H1 & H2 & H3 & H4 & H5 & H6).
  set (u := fun d => un sg (s (fr n1 n2 sg d))) in * .
  rewrite <- (fr_un sg d0 SS).
  assert (X : 0 < fst (un sg d0)) by exact D0. assert (Y : 0 <= snd (u (un sg d0))) by (unfold u; rewrite fr_un by exact SS; exact Y0).
  destruct GT as [G|[G L]].
  - destruct (sep_tt n1 n2 sg HU SS sup u g (lo_of sg) (hi_of sg) P (fun d => u_ok sg d SS) H1 Res H2 H3 H5 (un sg d0) G X Y) as (Sx & D & E & W).
    destruct W as [W|(p & -> & W)].
    + do 3 eexists. split; [exact E|]. split; [exact W|]. intros m Hm. pose proof (best_face sg m S ltac:(lra) Hm).
      pose proof (norm_nonneg (fr n1 n2 sg (g, - Rmax (lo_of sg) 0))). lra.
    + do 3 eexists. split; [exact E|]. split; [apply dto_one|]. intros m Hm.
      rewrite <- fr_neg, norm_neg. apply best_vertex; [lra|]. rewrite !fr_neg, !(fr_dot n1 n2 sg HU SS).
      pose proof (proj2 (Hfar (fr n1 n2 sg (pneg p))) m Hm) as F. rewrite <- (fr_un sg (s (fr n1 n2 sg (pneg p))) SS) in F.
      change (un sg (s (fr n1 n2 sg (pneg p)))) with (u (pneg p)) in F. rewrite (fr_dot n1 n2 sg HU SS) in F. unfold dot2 in W. cbn [pneg fst snd] in * . lra.
  - destruct (touch_tt n1 n2 sg HU SS sup u g (lo_of sg) P (fun d => u_ok sg d SS) H1 Res H2 H3 H6 (un sg d0) G (touch_lo sg L) X Y) as (Sx & D & E & W).
    do 3 eexists. split; [exact E|]. split; [exact W|]. intros m Hm. replace (norm (fr n1 n2 sg (0, 0))) with 0; [rewrite Rmult_0_r; apply norm_nonneg|].
    symmetry. apply norm_0. apply pt_eq; cbn; ring.
Qed.
Lemma face_ff : g = 0 -> (exists S D, run_ff sup 20 [] (inj d0) = Separated S D) /\ (exists S D, run_tf sup 20 [] (inj d0) = Separated S D).
Proof.
  intro G. destruct GT as [Q|[_ L]]; [lra|].
  destruct (sign_choice (pcross (n1, n2) (s d0))) as (sg & S & Y0). assert (SS : sg * sg = 1) by (destruct S; subst; lra).
  destruct (face_hyps sg S) as (H1 & H2 & H3 & H4 & H5 & H6).
  set (u := fun d => un sg (s (fr n1 n2 sg d))) in * .
  rewrite <- (fr_un sg d0 SS).
  assert (X : 0 < fst (un sg d0)) by exact D0. assert (Y : 0 <= snd (u (un sg d0))) by (unfold u; rewrite fr_un by exact SS; exact Y0).
  split.
  - apply (touch_ff n1 n2 sg HU SS sup u g (lo_of sg) P (fun d => u_ok sg d SS) H1 Res H2 H3 H6 (un sg d0) G (touch_lo sg L) X Y).
  - apply (touch_tf n1 n2 sg HU SS sup u g (lo_of sg) P (fun d => u_ok sg d SS) H1 Res H2 H3 H6 (un sg d0) G (touch_lo sg L) X Y).
Qed.
End Face.
