(** * Property theorems C30 (distance vectors of GJK pairs) and the parts of C28, C51 about the variants that measure distance. *)
From Coq Require Import Reals Lra Psatz Bool List Lia Arith.
From Verif Require Import Num NumXR Glam Transform2 Shapes2 Gjk Detect2 Spec SpecLink P_Base P_Transform P_Shapes P_Geo P_GjkShape SpecGjk P_Gjk P_Gjk2 P_Gjk3 P_Dist P_Scene.
Import ListNotations.
Local Open Scope R_scope.

(** ** The last simplex of a search consists of points of M *)
Section Any.
Variables (M : pset) (s : pt -> pt) (sup : vec2 XR -> vec2 XR) (K rho : R).
Hypothesis Hsup : forall d, norm d <= K -> sup (inj d) = inj (s d).
Hypothesis Hfar : forall d, norm d <= K -> is_farthest M d (s d).
Hypothesis HM : forall m, M m -> norm m <= rho.
Hypothesis K1 : 2 * rho <= K.
Hypothesis K3 : 8 * (rho * rho * rho) <= K.
Definition inside (o : outcome XR) : Prop :=
  match o with
  | Separated l _ | Exhausted l => exists S, l = map inj S /\ Forall M S /\ (1 <= length S <= 2)%nat
  | _ => True
  end.
Lemma ft_inside n : forall S d la, Forall M S -> (1 <= length S <= 2)%nat -> norm d <= K -> inside (run_ft sup n (map inj S) la (inj d)).
Proof.
  induction n as [|n IH]; intros S d la FS L Hd; cbn [run_ft]; [exists S; auto|].
  destruct (_ && _); [exists S; auto|]. rewrite (Hsup d Hd).
  destruct (add_any M K rho HM K1 K3 S (s d) FS (proj1 (Hfar d Hd)) ltac:(lia)) as [(S1 & d1 & E1 & F1 & L1 & N1)|(b & c & -> & E1)]; rewrite E1; [|exact I].
  destruct (direction_is_too_small (inj d1)); [rewrite perp_inj; apply IH; try assumption; exact (eq_ind_r (fun x => x <= K) Hd (perp_norm d)) | apply IH; assumption].
Qed.
Lemma tt_inside n : forall S d la p, Forall M S -> (1 <= length S <= 2)%nat -> norm d <= K -> inside (run_tt sup n (map inj S) la (inj d) p).
Proof.
  induction n as [|n IH]; intros S d la p FS L Hd; cbn [run_tt]; [exists S; auto|].
  destruct (_ && _); [exists S; auto|]. rewrite (Hsup d Hd).
  destruct (add_any M K rho HM K1 K3 S (s d) FS (proj1 (Hfar d Hd)) ltac:(lia)) as [(S1 & d1 & E1 & F1 & L1 & N1)|(b & c & -> & E1)]; rewrite E1;
    [|match goal with |- context [if ?x then Crashed _ else _] => destruct x end; exact I].
  cbn [andb]. destruct (direction_is_too_small (inj d1)); [rewrite perp_inj; apply IH; try assumption; exact (eq_ind_r (fun x => x <= K) Hd (perp_norm d)) | apply IH; assumption].
Qed.
End Any.

(** ** The nearest point of a segment *)
Lemma dto1 b : distance_to_origin (map inj [b]) = Ok (inj (pneg b)).
Proof. reflexivity. Qed.
Definition near_t (b c : pt) : R := pdot (pneg b) (psub c b) / pdot (psub c b) (psub c b).
Lemma dto2 b c : b <> c -> distance_to_origin (map inj [b; c]) =
  Ok (inj (if Rleb (near_t b c) 0 then pneg b else if Rleb 1 (near_t b c) then pneg c else psub (pneg b) (pscale (near_t b c) (psub c b)))).
Proof.
  intro N. cbn [map distance_to_origin].
  change (fdiv (v2dot (v2neg (inj b)) (v2sub (inj c) (inj b))) (v2dot (v2sub (inj c) (inj b)) (v2sub (inj c) (inj b))))
    with (xdiv (XFin (pdot (pneg b) (psub c b))) (XFin (pdot (psub c b) (psub c b)))).
  pose proof (ne_sub c b ltac:(auto)) as P. unfold xdiv. rewrite Reqb_false by lra.
  change (fle (XFin (pdot (pneg b) (psub c b) / pdot (psub c b) (psub c b))) f0) with (Rleb (near_t b c) 0).
  change (fle f1 (XFin (pdot (pneg b) (psub c b) / pdot (psub c b) (psub c b)))) with (Rleb 1 (near_t b c)).
  destruct (Rleb (near_t b c) 0); [reflexivity|]. destruct (Rleb 1 (near_t b c)); [reflexivity|].
  f_equal. unfold near_t. apply vec_ext; cbn; f_equal; ring.
Qed.
Lemma dto2_same b : exists v, distance_to_origin (map inj [b; b]) = Ok v /\ forall w, v <> inj w.
Proof.
  cbn [map distance_to_origin].
  assert (E : fdiv (v2dot (v2neg (inj b)) (v2sub (inj b) (inj b))) (v2dot (v2sub (inj b) (inj b)) (v2sub (inj b) (inj b))) = XNaN).
  { change (fdiv (v2dot (v2neg (inj b)) (v2sub (inj b) (inj b))) (v2dot (v2sub (inj b) (inj b)) (v2sub (inj b) (inj b))))
      with (xdiv (XFin (pdot (pneg b) (psub b b))) (XFin (pdot (psub b b) (psub b b)))).
    replace (pdot (pneg b) (psub b b)) with 0 by (unfold pdot, psub; cbn; ring). replace (pdot (psub b b) (psub b b)) with 0 by (unfold pdot, psub; cbn; ring).
    unfold xdiv. rewrite !Reqb_true by reflexivity. reflexivity. }
  rewrite E. eexists. split; [reflexivity|]. intros w Q. apply (f_equal vx) in Q. discriminate Q.
Qed.
(** the vector leads from the origin's side onto the segment *)
Lemma dto_in (M : pset) S w : convex M -> Forall M S -> (1 <= length S <= 2)%nat -> distance_to_origin (map inj S) = Ok (inj w) -> M (pneg w).
Proof.
  intros C FS L E. destruct S as [|b [|c [|x S]]]; cbn in L; try lia.
  - rewrite dto1 in E. injection E as E1 E2. apply Forall_hd in FS. replace (pneg w) with b; [exact FS|]. apply pt_eq; cbn; lra.
  - inversion FS as [|? ? B FS']; subst. apply Forall_hd in FS'. rename FS' into Cc.
    destruct (Req_dec (norm (psub b c)) 0) as [Z|Z].
    + apply norm_0 in Z. assert (b = c) by (apply pt_eq; [apply (f_equal fst) in Z | apply (f_equal snd) in Z]; cbn in Z; lra). subst c.
      destruct (dto2_same b) as (v & Ev & Nv). rewrite Ev in E. exfalso. apply (Nv w). congruence.
    + assert (N : b <> c) by (intros ->; apply Z; apply norm_0; apply pt_eq; cbn; ring).
      rewrite (dto2 b c N) in E. injection E as E1 E2.
      set (t := near_t b c) in * . set (u := if Rleb t 0 then pneg b else if Rleb 1 t then pneg c else psub (pneg b) (pscale t (psub c b))) in * .
      assert (Eu : u = w) by (apply pt_eq; assumption). rewrite <- Eu. unfold u.
      destruct (Rleb_spec t 0) as [H|H]; [rewrite pneg_pneg; exact B|].
      destruct (Rleb_spec 1 t) as [H2|H2]; [rewrite pneg_pneg; exact Cc|].
      replace (pneg (psub (pneg b) (pscale t (psub c b)))) with (padd (pscale (1 - t) b) (pscale t c)) by (apply pt_eq; cbn; ring).
      apply C; try assumption. lra.
Qed.

(** ** How near to the best the vector is *)
Section Best.
Variables (M : pset) (s : pt -> pt) (K : R).
Lemma far_bound k d p m : 0 <= k -> pdot d m <= k * pdot d p -> pdot d p <= 0 -> k * - pdot d p <= norm d * norm m.
Proof. intros Hk H Z. pose proof (cauchy (pneg d) m) as C. rewrite norm_neg, pdot_neg_l in C. lra. Qed.
Lemma best_vertex k b m : 0 <= k -> pdot (pneg b) m <= k * pdot (pneg b) b -> k * norm b <= norm m.
Proof.
  intros Hk H. pose proof (norm_nonneg b) as Nb. pose proof (norm_nonneg m). destruct (Req_dec (norm b) 0) as [Z|Z]; [rewrite Z; lra|].
  pose proof (far_bound k (pneg b) b m Hk H ltac:(rewrite pdot_neg_l; pose proof (pdot_nonneg b); lra)) as F.
  rewrite pdot_neg_l, norm_neg, <- norm_sq in F. apply Rmult_le_reg_l with (norm b); lra.
Qed.
Lemma St_best k S n w : 0 <= k -> St M s K S n -> (forall m, M m -> pdot n m <= k * pdot n (newest S)) -> distance_to_origin (map inj S) = Ok (inj w) ->
  (forall m, M m -> k * norm w <= norm m) \/ value s K (pneg w).
Proof.
  intros Hk (FS & Hn & Hm) F E. destruct S as [|b [|c [|x S]]]; try contradiction; cbn [newest hd] in F.
  - subst n. rewrite dto1 in E. injection E as E1 E2. assert (Ew : w = pneg b) by (apply pt_eq; cbn; lra). subst w.
    left. intros m Hm. rewrite norm_neg. apply best_vertex; [exact Hk | apply F, Hm].
  - inversion FS as [|? ? Vb FS']; subst. apply Forall_hd in FS'. destruct Hm as [(B & _)|W].
    + pose proof B as (N & NE & Eq & Z). rewrite (dto2 b c NE) in E. injection E as E1 E2.
      set (t := near_t b c) in * . set (u := if Rleb t 0 then pneg b else if Rleb 1 t then pneg c else psub (pneg b) (pscale t (psub c b))) in * .
      assert (Eu : u = w) by (apply pt_eq; assumption). rewrite <- Eu. unfold u.
      destruct (Rleb_spec t 0) as [H|H]; [right; rewrite pneg_pneg; apply Vb|].
      destruct (Rleb_spec 1 t) as [H2|H2]; [right; rewrite pneg_pneg; apply FS'|]. left. intros m Hm.
      set (f := psub (pneg b) (pscale t (psub c b))).
      pose proof (ne_sub c b ltac:(auto)) as Pl.
      assert (Pf : pdot f (psub c b) = 0).
      { unfold f. rewrite pdot_sub_l. replace (pdot (pscale t (psub c b)) (psub c b)) with (t * pdot (psub c b) (psub c b)) by (unfold pdot, pscale; cbn; ring).
        unfold t, near_t. field. lra. }
      destruct (orthogonal_parallel (psub c b) f n) as (l & El); try assumption.
      * intro Q. apply NE. apply pt_eq; [apply (f_equal fst) in Q | apply (f_equal snd) in Q]; cbn in Q; lra.
      * rewrite pdot_sub_r. lra.
      * assert (Nf : pdot n f = - pdot n b).
        { unfold f. rewrite pdot_sub_r, pdot_neg_r, pdot_scale_r, pdot_sub_r, Eq. ring. }
        rewrite El in Nf. rewrite pdot_scale_r in Nf. pose proof (dot_pos n N) as Pn.
        assert (Ll : 0 <= l) by nra.
        pose proof (far_bound k n b m Hk (F m Hm) Z) as Q. rewrite <- Nf, <- norm_sq in Q.
        rewrite El, norm_scale, Rabs_right by lra. pose proof (norm_pos n N) as Np.
        apply Rmult_le_reg_l with (norm n); [exact Np|]. lra.
    + destruct W as (-> & Hbc & _). left. assert (NE : b <> c) by (intros ->; lra).
      rewrite (dto2 b c NE) in E. injection E as E1 E2. pose proof (ne_sub c b ltac:(auto)) as Pl.
      assert (T : near_t b c <= 0).
      { unfold near_t. apply Rmult_le_reg_r with (pdot (psub c b) (psub c b)); [exact Pl|]. unfold Rdiv. rewrite Rmult_assoc, Rinv_l, Rmult_0_l, Rmult_1_r by lra.
        rewrite pdot_neg_l, pdot_sub_r. lra. }
      rewrite (Rleb_true _ _ T) in E1, E2. assert (Ew : w = pneg b) by (apply pt_eq; cbn in *; lra). subst w.
      intros m Hm. rewrite norm_neg. apply best_vertex; [exact Hk | apply F, Hm].
Qed.
Lemma St_finite S n : St M s K S n -> exists w, distance_to_origin (map inj S) = Ok (inj w).
Proof.
  intros (FS & Hn & Hm). destruct S as [|b [|c [|x S]]]; try contradiction.
  - exists (pneg b). reflexivity.
  - assert (NE : b <> c) by (destruct Hm as [((_ & NE & _) & _)|(_ & H & _)]; [exact NE | intros ->; lra]).
    rewrite (dto2 b c NE). eexists. reflexivity.
Qed.
End Best.

Section Scene.
Context {T : Type} {TR : Transformation2d XR T}.
Variables (a b : shape2d XR) (t : T) (A B : pset).
Hypothesis SC : scene a b t A B.
Let M := minkowski_diff A B.
Let s := sreal a b t.
Let sup := lmd_extreme_point a b t.
Let Hsup : forall d, norm d <= reach -> sup (inj d) = inj (s d) := proj1 (scene_facts a b t A B SC).
Let Hfar : forall d, norm d <= reach -> is_farthest M d (s d) := proj1 (proj2 (scene_facts a b t A B SC)).
Let HM : forall m, M m -> norm m <= 3 * world := proj1 (proj2 (proj2 (scene_facts a b t A B SC))).
Let HC : convex M := proj1 (proj2 (proj2 (proj2 (scene_facts a b t A B SC)))).
Let H0 := proj2 (proj2 (proj2 (proj2 (scene_facts a b t A B SC)))).

Lemma start_ft_inside d0 : norm d0 <= reach -> inside M (start_ft sup (inj d0)).
Proof.
  intro H. unfold start_ft. rewrite (Hsup d0 H), addp1. pose proof (proj1 (Hfar d0 H)) as Q.
  exact (ft_inside M s sup reach (3 * world) Hsup Hfar HM K1' K3' 20 [s d0] (pneg (s d0)) (inj (s d0)) ltac:(auto) ltac:(cbn; lia) (neg_bound M reach (3 * world) HM K1' _ Q)).
Qed.
Lemma start_tt_inside d0 : norm d0 <= reach -> inside M (start_tt sup (inj d0)).
Proof.
  intro H. unfold start_tt. rewrite (Hsup d0 H), addp1. pose proof (proj1 (Hfar d0 H)) as Q.
  exact (tt_inside M s sup reach (3 * world) Hsup Hfar HM K1' K3' 20 [s d0] (pneg (s d0)) (inj (s d0)) true ltac:(auto) ltac:(cbn; lia) (neg_bound M reach (3 * world) HM K1' _ Q)).
Qed.

Lemma q_distance_contact w : distance_to_rel (F:=XR) a b t = Ok (Some (inj w)) -> meets (shift w A) B.
Proof.
  unfold distance_to_rel, sdfv_common_rel, Sdfv_ShapeShape, minkowski_sdfv, gjk, gjk_ft. fold sup.
  destruct H0 as (d0 & -> & N0 & L0). intro E. pose proof (start_ft_inside d0 L0) as Q.
  apply meets_diff. fold M.
  destruct (start_ft sup (inj d0)) as [l d|l|l d|l|p]; try discriminate E;
    try (destruct (Nat.eqb _ _); discriminate E);
    destruct Q as (S & -> & FS & L); destruct (distance_to_origin (map inj S)) as [v|] eqn:R; try discriminate E;
    cbn in E; injection E as ->; apply (dto_in M S w HC FS L R).
Qed.
Lemma q_sdfv_contact w : sdfv_rel (F:=XR) a b t = Ok (false, inj w) -> meets (shift w A) B.
Proof.
  unfold sdfv_rel, sdfv_common_rel, Sdfv_ShapeShape, minkowski_sdfv, gjk, gjk_tt. fold sup.
  destruct H0 as (d0 & -> & N0 & L0). intro E. pose proof (start_tt_inside d0 L0) as Q.
  apply meets_diff. fold M.
  destruct (start_tt sup (inj d0)) as [l d|l|l d|l|p]; try discriminate E;
    try (destruct (enforce_ccw l); discriminate E);
    destruct Q as (S & -> & FS & L); destruct (distance_to_origin (map inj S)) as [v|] eqn:R; try discriminate E;
    cbn in E; injection E as ->; apply (dto_in M S w HC FS L R).
Qed.

Hypothesis RS : resolved a b t.
Let Res := resolved_values a b t A B SC RS.
Lemma q_ft : exists d0, lmd_initial_direction t = inj d0 /\ ended M s reach 1 (start_ft sup (inj d0)).
Proof.
  destruct H0 as (d0 & E & N0 & L0). exists d0. split; [exact E|].
  exact (start_ft_ended M s sup reach (3 * world) Hsup Hfar HM K1' K3' Res d0 L0).
Qed.
Lemma q_tt : exists d0, lmd_initial_direction t = inj d0 /\ ended M s reach (99/100) (start_tt sup (inj d0)).
Proof.
  destruct H0 as (d0 & E & N0 & L0). exists d0. split; [exact E|].
  exact (start_tt_ended M s sup reach (3 * world) Hsup Hfar HM K1' K3' Res d0 L0).
Qed.
Lemma cap_meets l k : ended M s reach k (Captured l) -> meets A B.
Proof. intros (n & x & y & z & _ & X & Y & Z & _ & _ & F). apply origin_meets. exact (cap_origin M n x y z HC X Y Z F). Qed.
Lemma q_distance_none : distance_to_rel (F:=XR) a b t = Ok None -> meets A B.
Proof.
  unfold distance_to_rel, sdfv_common_rel, Sdfv_ShapeShape, minkowski_sdfv, gjk, gjk_ft. fold sup.
  destruct q_ft as (d0 & -> & Q). intro E.
  destruct (start_ft sup (inj d0)) as [l d|l|l d|l|p]; try contradiction.
  - destruct (distance_to_origin l); discriminate.
  - exact (cap_meets l 1 Q).
  - destruct (distance_to_origin l); discriminate.
Qed.
Lemma q_sdfv_true v : sdfv_rel (F:=XR) a b t = Ok (true, v) -> meets A B.
Proof.
  unfold sdfv_rel, sdfv_common_rel, Sdfv_ShapeShape, minkowski_sdfv, gjk, gjk_tt. fold sup.
  destruct q_tt as (d0 & -> & Q). intro E.
  destruct (start_tt sup (inj d0)) as [l d|l|l d|l|p]; try contradiction.
  - destruct (distance_to_origin l); discriminate.
  - exact (cap_meets l _ Q).
  - destruct (distance_to_origin l); discriminate.
Qed.
Lemma q_distance_finite : distance_to_rel (F:=XR) a b t = Ok None \/ exists w, distance_to_rel (F:=XR) a b t = Ok (Some (inj w)).
Proof.
  unfold distance_to_rel, sdfv_common_rel, Sdfv_ShapeShape, minkowski_sdfv, gjk, gjk_ft. fold sup.
  destruct q_ft as (d0 & -> & Q).
  destruct (start_ft sup (inj d0)) as [l d|l|l d|l|p]; try contradiction.
  - destruct Q as (S & n & -> & _ & I & _). destruct (St_finite M s reach S n I) as (w & ->). right. exists w. reflexivity.
  - destruct Q as (n & x & y & z & -> & _). left. reflexivity.
  - destruct Q as (S & n & -> & I). destruct (St_finite M s reach S n I) as (w & ->). right. exists w. reflexivity.
Qed.
Lemma q_sdfv_finite : (exists v, sdfv_rel (F:=XR) a b t = Ok (true, v)) \/ exists w, sdfv_rel (F:=XR) a b t = Ok (false, inj w).
Proof.
  unfold sdfv_rel, sdfv_common_rel, Sdfv_ShapeShape, minkowski_sdfv, gjk, gjk_tt. fold sup.
  destruct q_tt as (d0 & -> & Q).
  destruct (start_tt sup (inj d0)) as [l d|l|l d|l|p]; try contradiction.
  - destruct Q as (S & n & -> & _ & I & _). destruct (St_finite M s reach S n I) as (w & ->). right. exists w. reflexivity.
  - destruct Q as (n & x & y & z & -> & _). destruct (ccw_tri x y z) as (pts & ->). left. eexists. reflexivity.
  - destruct Q as (S & n & -> & I). destruct (St_finite M s reach S n I) as (w & ->). right. exists w. reflexivity.
Qed.
Lemma value_support p : value s reach p -> support_value a b t p.
Proof. intros (d & Hd & ->). exists d. split; [exact Hd | apply Hsup, Hd]. Qed.
Lemma q_distance_best w : distance_to_rel (F:=XR) a b t = Ok (Some (inj w)) ->
  is_min_contact w A B \/ support_value a b t (pneg w) \/ ran_out (start_ft sup (lmd_initial_direction t)).
Proof.
  intro E. pose proof (q_distance_contact w E) as Ct. revert E.
  unfold distance_to_rel, sdfv_common_rel, Sdfv_ShapeShape, minkowski_sdfv, gjk, gjk_ft. fold sup.
  destruct q_ft as (d0 & -> & Q). intro E.
  destruct (start_ft sup (inj d0)) as [l d|l|l d|l|p]; try contradiction.
  - destruct Q as (S & n & -> & _ & I & F). destruct (distance_to_origin (map inj S)) as [v|] eqn:R; [|discriminate]. cbn in E. injection E as ->.
    destruct (St_best M s reach 1 S n w ltac:(lra) I F R) as [Q|Q]; [left | right; left; apply value_support, Q].
    split; [exact Ct|]. intros u U. apply meets_diff in U. specialize (Q _ U). rewrite norm_neg in Q. lra.
  - destruct Q as (n & x & y & z & -> & _). discriminate.
  - right. right. exists l. reflexivity.
Qed.
Lemma q_sdfv_best w : sdfv_rel (F:=XR) a b t = Ok (false, inj w) ->
  (forall u, meets (shift u A) B -> 99 / 100 * norm w <= norm u) \/ support_value a b t (pneg w) \/ ran_out (start_tt sup (lmd_initial_direction t)).
Proof.
  unfold sdfv_rel, sdfv_common_rel, Sdfv_ShapeShape, minkowski_sdfv, gjk, gjk_tt. fold sup.
  destruct q_tt as (d0 & -> & Q). intro E.
  destruct (start_tt sup (inj d0)) as [l d|l|l d|l|p]; try contradiction.
  - destruct Q as (S & n & -> & _ & I & F). destruct (distance_to_origin (map inj S)) as [v|] eqn:R; [|discriminate]. cbn in E. injection E as ->.
    destruct (St_best M s reach (99/100) S n w ltac:(lra) I F R) as [Q|Q]; [left | right; left; apply value_support, Q].
    intros u U. apply meets_diff in U. specialize (Q _ U). rewrite norm_neg in Q. lra.
  - destruct (enforce_ccw l); discriminate.
  - right. right. exists l. reflexivity.
Qed.
End Scene.

(** ** C28, C51: with the tolerance out of the way, 'colliding' answers of the measuring queries mean contact, and sdfv does not panic *)
Theorem C28_distance_none_sound : forall (T : Type) (TR : Transformation2d XR T) a b (t : T) A B, scene a b t A B -> resolved a b t ->
  distance_to_rel (F:=XR) a b t = Ok None -> meets A B.
Proof. intros T TR a b t A B SC RS. exact (q_distance_none a b t A B SC RS). Qed.
Print Assumptions C28_distance_none_sound.
Theorem C28_sdfv_true_sound : forall (T : Type) (TR : Transformation2d XR T) a b (t : T) A B v, scene a b t A B -> resolved a b t ->
  sdfv_rel (F:=XR) a b t = Ok (true, v) -> meets A B.
Proof. intros T TR a b t A B v SC RS. exact (q_sdfv_true a b t A B SC RS v). Qed.
Print Assumptions C28_sdfv_true_sound.
Theorem C51_sdfv_no_panic : forall (T : Type) (TR : Transformation2d XR T) a b (t : T) A B, scene a b t A B -> resolved a b t ->
  exists r, sdfv_rel (F:=XR) a b t = Ok r.
Proof. intros T TR a b t A B SC RS. destruct (q_sdfv_finite a b t A B SC RS) as [(v & E)|(w & E)]; eexists; exact E. Qed.
Print Assumptions C51_sdfv_no_panic.

(** ** C30: a finite distance vector moves self into contact with the other shape: the distance is never underestimated *)
Theorem C30_distance_contact : forall (T : Type) (TR : Transformation2d XR T) a b (t : T) A B w, scene a b t A B ->
  distance_to_rel (F:=XR) a b t = Ok (Some (inj w)) -> meets (shift w A) B.
Proof. intros T TR a b t A B w SC. exact (q_distance_contact a b t A B SC w). Qed.
Print Assumptions C30_distance_contact.
Theorem C30_sdfv_contact : forall (T : Type) (TR : Transformation2d XR T) a b (t : T) A B w, scene a b t A B ->
  sdfv_rel (F:=XR) a b t = Ok (false, inj w) -> meets (shift w A) B.
Proof. intros T TR a b t A B w SC. exact (q_sdfv_contact a b t A B SC w). Qed.
Print Assumptions C30_sdfv_contact.
(** The vectors are finite (no NaN from a collapsed segment) when the tolerance does not interfere. *)
Theorem C30_distance_finite : forall (T : Type) (TR : Transformation2d XR T) a b (t : T) A B, scene a b t A B -> resolved a b t ->
  distance_to_rel (F:=XR) a b t = Ok None \/ exists w, distance_to_rel (F:=XR) a b t = Ok (Some (inj w)).
Proof. intros T TR a b t A B SC RS. exact (q_distance_finite a b t A B SC RS). Qed.
Print Assumptions C30_distance_finite.
Theorem C30_sdfv_finite : forall (T : Type) (TR : Transformation2d XR T) a b (t : T) A B r, scene a b t A B -> resolved a b t ->
  sdfv_rel (F:=XR) a b t = Ok r -> fst r = false -> exists w, snd r = inj w.
Proof.
  intros T TR a b t A B r SC RS E F. destruct (q_sdfv_finite a b t A B SC RS) as [(v & E')|(w & E')]; rewrite E in E'; injection E' as ->; [discriminate F|].
  exists w. reflexivity.
Qed.
Print Assumptions C30_sdfv_finite.
(** Unless the iteration limit is reached, the vector is a shortest one, or it brings an extreme point of self exactly
    onto an extreme point of the other shape (that the second case can be far from shortest is C30_minimal_refuted). *)
Theorem C30_distance_min_or_corner : forall (T : Type) (TR : Transformation2d XR T) a b (t : T) A B w, scene a b t A B -> resolved a b t ->
  distance_to_rel (F:=XR) a b t = Ok (Some (inj w)) ->
  is_min_contact w A B \/ support_value a b t (pneg w) \/
  exists l, start_ft (lmd_extreme_point a b t) (lmd_initial_direction t) = Exhausted l.
Proof. intros T TR a b t A B w SC RS. exact (q_distance_best a b t A B SC RS w). Qed.
Print Assumptions C30_distance_min_or_corner.
(** The same for sdfv, which stops within 1%. *)
Theorem C30_sdfv_min_or_corner : forall (T : Type) (TR : Transformation2d XR T) a b (t : T) A B w, scene a b t A B -> resolved a b t ->
  sdfv_rel (F:=XR) a b t = Ok (false, inj w) ->
  (forall u, meets (shift u A) B -> 99 / 100 * norm w <= norm u) \/ support_value a b t (pneg w) \/
  exists l, start_tt (lmd_extreme_point a b t) (lmd_initial_direction t) = Exhausted l.
Proof. intros T TR a b t A B w SC RS. exact (q_sdfv_best a b t A B SC RS w). Qed.
Print Assumptions C30_sdfv_min_or_corner.

(** ** The hypotheses are met: a unit box and a triangle moved by (4, 0), which are apart *)
Definition ex_tri' : list pt := [(-1, 0); (1, 1); (1, -1)].
Example far_scene : scene (SBox (pbox 1 1)) (SPoly (ppoly ex_tri')) (inj (4, 0)) (rect 1 1) (image (place (4, 0) 1 0 1 1) (hull ex_tri')).
Proof.
  apply (Scene _ _ _ _ _ 2 (4, 0) 1 0 1 (hull ex_tri')); try reflexivity; try lra; try (unfold world; lra).
  - apply body_box; try lra. apply norm_le_sq; unfold pdot, world; cbn; lra.
  - apply body_poly; [discriminate|]. intros p [<-|[<-|[<-|[]]]]; apply norm_le_sq; unfold pdot; cbn; lra.
  - apply acts_vec2.
  - apply norm_le_sq; unfold pdot, world; cbn; lra.
Qed.
Example far_resolved : resolved (SBox (pbox 1 1)) (SPoly (ppoly ex_tri')) (inj (4, 0)).
Proof.
  assert (G : forall z, on_grid (IZR z)) by (intro z; exists (z * 128)%Z; rewrite mult_IZR; field).
  apply (resolved_grid _ _ _ _ _ (4, 0) 4 3 far_scene eq_refl eq_refl).
  - exists (1, 1). split; [reflexivity | split; apply G].
  - intros q [<-|[<-|[<-|[]]]]; eexists; (split; [reflexivity | split; apply G]).
  - apply acts_vec2.
  - split; apply G.
Qed.
Example far_apart : ~ meets (rect 1 1) (image (place (4, 0) 1 0 1 1) (hull ex_tri')).
Proof.
  intros (p & [H _] & q & (ws & L & N & S & Eq) & ->).
  destruct ws as [|w0 [|w1 [|w2 [|x ws]]]]; cbn in L; try discriminate L. cbn in H, S, Eq. subst q. cbn in H.
  inversion N as [|? ? N0 N']; subst. inversion N' as [|? ? N1 N'']; subst. inversion N'' as [|? ? N2 N3]; subst. lra.
Qed.
Example distance_met : exists w, distance_to_rel (F:=XR) (SBox (pbox 1 1)) (SPoly (ppoly ex_tri')) (inj (4, 0)) = Ok (Some (inj w)).
Proof.
  destruct (q_distance_finite _ _ _ _ _ far_scene far_resolved) as [E|E]; [|exact E].
  exfalso. exact (far_apart (q_distance_none _ _ _ _ _ far_scene far_resolved E)).
Qed.
Example sdfv_met : exists w, sdfv_rel (F:=XR) (SBox (pbox 1 1)) (SPoly (ppoly ex_tri')) (inj (4, 0)) = Ok (false, inj w).
Proof.
  destruct (q_sdfv_finite _ _ _ _ _ far_scene far_resolved) as [(v & E)|E]; [|exact E].
  exfalso. exact (far_apart (q_sdfv_true _ _ _ _ _ far_scene far_resolved v E)).
Qed.
