(** * Independent specification: plane and space geometry over the real numbers.

    Nothing in this file refers to the model of the code. *)
From Coq Require Import Reals List.
Import ListNotations.
Local Open Scope R_scope.

(** ** Points and vectors of the plane *)
Definition pt : Type := (R * R)%type.
Definition origin : pt := (0, 0).
Definition padd (p q : pt) : pt := (fst p + fst q, snd p + snd q).
Definition psub (p q : pt) : pt := (fst p - fst q, snd p - snd q).
Definition pneg (p : pt) : pt := (- fst p, - snd p).
Definition pscale (k : R) (p : pt) : pt := (k * fst p, k * snd p).
Definition pdot (p q : pt) : R := fst p * fst q + snd p * snd q.
Definition pcross (p q : pt) : R := fst p * snd q - snd p * fst q.
Definition norm (p : pt) : R := sqrt (pdot p p).

(** ** Sets of points *)
Definition pset : Type := pt -> Prop.
Definition single (p : pt) : pset := fun q => q = p.
(** the closed axis-aligned rectangle [-hx,hx] x [-hy,hy] *)
Definition rect (hx hy : R) : pset := fun p => - hx <= fst p <= hx /\ - hy <= snd p <= hy.
(** the closed disc of radius r around the origin *)
Definition disc (r : R) : pset := fun p => norm p <= r.
(** all points within distance r of the rectangle *)
Definition rounded_rect (hx hy r : R) : pset :=
  fun p => exists q, rect hx hy q /\ norm (psub p q) <= r.
(** the convex hull of finitely many points: all weighted averages *)
Fixpoint wsum (ws : list R) (ps : list pt) : pt :=
  match ws, ps with
  | w :: ws', p :: ps' => padd (pscale w p) (wsum ws' ps')
  | _, _ => origin
  end.
Fixpoint total (ws : list R) : R := match ws with [] => 0 | w :: ws' => w + total ws' end.
Definition hull (ps : list pt) : pset :=
  fun p => exists ws, length ws = length ps /\ Forall (fun w => 0 <= w) ws /\ total ws = 1 /\ p = wsum ws ps.
(** moving a set *)
Definition shift (v : pt) (A : pset) : pset := fun p => A (psub p v).
Definition image (f : pt -> pt) (A : pset) : pset := fun q => exists p, A p /\ q = f p.
Definition convex (A : pset) : Prop :=
  forall p q t, A p -> A q -> 0 <= t <= 1 -> A (padd (pscale (1 - t) p) (pscale t q)).
Definition included (A B : pset) : Prop := forall p, A p -> B p.
Definition same_set (A B : pset) : Prop := forall p, A p <-> B p.

(** [-hx,hx] x [-hy,hy] is the smallest origin-centred rectangle containing A *)
Definition tight_box (A : pset) (hx hy : R) : Prop :=
  included A (rect hx hy) /\ forall kx ky, included A (rect kx ky) -> included (rect hx hy) (rect kx ky).

(** ** Contact and overlap of two bodies *)
Definition meets (A B : pset) : Prop := exists p, A p /\ B p.
(** A and B overlap (with positive depth): A still meets B after every small enough translation *)
Definition overlaps (A B : pset) : Prop :=
  exists eps, 0 < eps /\ forall w, norm w < eps -> meets (shift w A) B.
(** translating A by v resolves the overlap *)
Definition separates (v : pt) (A B : pset) : Prop := ~ overlaps (shift v A) B.
(** v is a shortest translation of A that resolves the overlap *)
Definition is_min_separation (v : pt) (A B : pset) : Prop :=
  separates v A B /\ forall w, separates w A B -> norm v <= norm w.
(** v is a shortest translation of A that brings A into contact with B *)
Definition is_min_contact (v : pt) (A B : pset) : Prop :=
  meets (shift v A) B /\ forall w, meets (shift w A) B -> norm v <= norm w.
(** the signed distance of two bodies: the gap, or minus the penetration depth *)
Definition is_signed_distance (d : R) (A B : pset) : Prop :=
  (overlaps A B /\ exists v, is_min_separation v A B /\ d = - norm v)
  \/ (~ overlaps A B /\ exists v, is_min_contact v A B /\ d = norm v).

(** p is a point of A farthest in direction d *)
Definition is_farthest (A : pset) (d p : pt) : Prop := A p /\ forall q, A q -> pdot d q <= pdot d p.
(** all differences of a point of A and a point of B *)
Definition minkowski_diff (A B : pset) : pset := fun d => exists a b, A a /\ B b /\ d = psub a b.

(** ** Motions of the plane *)
(** scale by (sx,sy), rotate by the angle with cosine c and sine s, translate by v *)
Definition place (v : pt) (c s : R) (sx sy : R) (p : pt) : pt :=
  (c * (sx * fst p) - s * (sy * snd p) + fst v, s * (sx * fst p) + c * (sy * snd p) + snd v).
Definition rotate (c s : R) (p : pt) : pt := (c * fst p - s * snd p, s * fst p + c * snd p).

(** ** Space *)
Definition pt3 : Type := (R * R * R)%type.
Definition x3 (p : pt3) : R := fst (fst p).
Definition y3 (p : pt3) : R := snd (fst p).
Definition z3 (p : pt3) : R := snd p.
Definition add3 (p q : pt3) : pt3 := (x3 p + x3 q, y3 p + y3 q, z3 p + z3 q).
Definition sub3 (p q : pt3) : pt3 := (x3 p - x3 q, y3 p - y3 q, z3 p - z3 q).
Definition neg3 (p : pt3) : pt3 := (- x3 p, - y3 p, - z3 p).
Definition scale3 (k : R) (p : pt3) : pt3 := (k * x3 p, k * y3 p, k * z3 p).
Definition dot3 (p q : pt3) : R := x3 p * x3 q + y3 p * y3 q + z3 p * z3 q.
Definition norm3 (p : pt3) : R := sqrt (dot3 p p).
Definition pset3 : Type := pt3 -> Prop.
Definition box3 (hx hy hz : R) : pset3 :=
  fun p => - hx <= x3 p <= hx /\ - hy <= y3 p <= hy /\ - hz <= z3 p <= hz.
Definition ball3 (r : R) : pset3 := fun p => norm3 p <= r.
(** upright cylinder of the given height and radius, centred at the origin *)
Definition cylinder3 (height r : R) : pset3 :=
  fun p => norm (x3 p, y3 p) <= r /\ - (height / 2) <= z3 p <= height / 2.
Definition single3 (p : pt3) : pset3 := fun q => q = p.
Definition shift3 (v : pt3) (A : pset3) : pset3 := fun p => A (sub3 p v).
Definition meets3 (A B : pset3) : Prop := exists p, A p /\ B p.
Definition overlaps3 (A B : pset3) : Prop :=
  exists eps, 0 < eps /\ forall w, norm3 w < eps -> meets3 (shift3 w A) B.
Definition separates3 (v : pt3) (A B : pset3) : Prop := ~ overlaps3 (shift3 v A) B.
Definition is_min_separation3 (v : pt3) (A B : pset3) : Prop :=
  separates3 v A B /\ forall w, separates3 w A B -> norm3 v <= norm3 w.
Definition is_min_contact3 (v : pt3) (A B : pset3) : Prop :=
  meets3 (shift3 v A) B /\ forall w, meets3 (shift3 w A) B -> norm3 v <= norm3 w.
Definition is_signed_distance3 (d : R) (A B : pset3) : Prop :=
  (overlaps3 A B /\ exists v, is_min_separation3 v A B /\ d = - norm3 v)
  \/ (~ overlaps3 A B /\ exists v, is_min_contact3 v A B /\ d = norm3 v).
Definition is_farthest3 (A : pset3) (d p : pt3) : Prop := A p /\ forall q, A q -> dot3 d q <= dot3 d p.
Definition minkowski_sum3 (A B : pset3) : pset3 := fun d => exists a b, A a /\ B b /\ d = add3 a b.
Definition same_set3 (A B : pset3) : Prop := forall p, A p <-> B p.
Definition included3 (A B : pset3) : Prop := forall p, A p -> B p.
Definition cross3 (p q : pt3) : pt3 :=
  (y3 p * z3 q - z3 p * y3 q, z3 p * x3 q - x3 p * z3 q, x3 p * y3 q - y3 p * x3 q).
(** rotation by the angle t about the unit axis u (Rodrigues' formula) *)
Definition rotate3 (u : pt3) (t : R) (p : pt3) : pt3 :=
  add3 (add3 (scale3 (cos t) p) (scale3 (sin t) (cross3 u p))) (scale3 ((1 - cos t) * dot3 u p) u).
