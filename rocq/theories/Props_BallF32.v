(** * C54 in binary32: the polytope search gives up on nearly concentric balls and on balls that barely overlap *)
From Coq Require Import Reals ZArith Bool Lra Lia List.
From Flocq Require Import IEEE754.BinarySingleNaN Core.
From Verif Require Import Num NumXR NumB32 Glam Transform2 Shapes2 Gjk Detect2 Spec SpecLink P_B32 P_Base P_Shapes P_Geo P_GjkShape SpecGjk P_Gjk P_Scene Props_F32Gjk.
Import ListNotations.
Local Open Scope R_scope.

Definition unit_ball : ball b32 := Ball (b32_of 1 0).
(** zero displacement, 1/64 along x, and 8191/4096 along x (the balls overlap by 1/4096) *)
Definition bad_offsets : list (vec2 b32) := [V2 f0 f0; V2 (b32_of 1 (-6)) f0; V2 (b32_of 8191 (-12)) f0].
Lemma unit_overlap x : Rabs x < 2 -> overlaps (disc 1) (shift (x, 0) (disc 1)).
Proof.
  intro H. exists (2 - Rabs x). split; [lra|]. intros w Hw. exists (padd (pscale (1/2) w) (x / 2, 0)). unfold shift, disc.
  assert (N : norm (x / 2, 0) = Rabs x / 2) by (rewrite norm_xaxis; unfold Rdiv; rewrite Rabs_mult, (Rabs_right (/ 2)) by lra; reflexivity).
  assert (K : norm (pscale (1 / 2) w) <= 1 - Rabs x / 2) by (rewrite norm_scale, Rabs_right by lra; lra).
  split.
  - replace (psub (padd (pscale (1 / 2) w) (x / 2, 0)) w) with (padd (pneg (pscale (1 / 2) w)) (x / 2, 0)) by (apply pt_eq; cbn; field).
    eapply Rle_trans; [apply norm_triangle|]. rewrite norm_neg, N. lra.
  - replace (psub (padd (pscale (1 / 2) w) (x / 2, 0)) (x, 0)) with (psub (pscale (1 / 2) w) (x / 2, 0)) by (apply pt_eq; cbn; field).
    eapply Rle_trans; [apply norm_psub|]. rewrite N. lra.
Qed.
(** Unit balls of the Shape2d union at these offsets overlap, but penetrates answers with the zero vector, which does
    not separate them; the closed form of Ball v Ball finds a vector at least 1/4096 long. *)
Theorem C54_zero_vector_refuted : forall rel, In rel bad_offsets ->
  let A := disc 1 in let B := shift (rval rel) (disc 1) in
  overlaps A B /\
  (exists p, penetrates_rel (F:=b32) (SBall unit_ball) (SBall unit_ball) rel = Ok (Some p) /\ rval p = origin /\ ~ separates (rval p) A B) /\
  (exists q, penetrates_rel (F:=b32) unit_ball unit_ball rel = Ok (Some q) /\ 1 / 4096 <= Rabs (val (vx q))).
Proof.
  intros rel I A B.
  assert (Z : exists x, rval rel = (x, 0) /\ 0 <= x < 2).
  { destruct I as [<-|[<-|[<-|[]]]]; unfold rval; cbn [vx vy]; bval; eexists; (split; [reflexivity|]); lra. }
  destruct Z as (x & EX & RX). assert (O : overlaps A B) by (unfold A, B; rewrite EX; apply unit_overlap; rewrite Rabs_right; lra).
  split; [exact O|]. split.
  - assert (E : match penetrates_rel (F:=b32) (SBall unit_ball) (SBall unit_ball) rel with Ok (Some (V2 (B754_zero _) (B754_zero _))) => True | _ => False end).
    { destruct I as [<-|[<-|[<-|[]]]]; vm_compute; exact Logic.I. }
    destruct (penetrates_rel (F:=b32) (SBall unit_ball) (SBall unit_ball) rel) as [[[px py]|]|]; try contradiction.
    destruct px; try contradiction. destruct py; try contradiction. eexists. split; [reflexivity|]. split; [reflexivity|].
    intro S. apply S. apply (proj1 (overlaps_0 _ _)), O.
  - assert (E : match penetrates_rel (F:=b32) unit_ball unit_ball rel with Ok (Some v) => In (B2SF (vx v)) [SpecFloat.S754_finite false 8388608 (-22); SpecFloat.S754_finite true 16646144 (-23); SpecFloat.S754_finite true 8388608 (-35)] | _ => False end).
    { destruct I as [<-|[<-|[<-|[]]]]; vm_compute; auto. }
    destruct (penetrates_rel (F:=b32) unit_ball unit_ball rel) as [[q|]|]; try contradiction. exists q. split; [reflexivity|].
    unfold val. rewrite <- SF2R_B2SF. destruct E as [<-|[<-|[<-|[]]]]; unfold SF2R, F2R; cbn; unfold Rabs; destruct (Rcase_abs _); lra.
Qed.
Print Assumptions C54_zero_vector_refuted.
