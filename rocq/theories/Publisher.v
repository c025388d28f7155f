(** * src/utils/publisher.rs: event publishers. *)
From Coq Require Import List Bool.
Import ListNotations.

Section Publisher.
Context {E : Type}.

(** Ledger, publisher.rs:32-34, and Ledger::new / default, publisher.rs:42-52 *)
Record ledger := Ledger { l_events : list E }.
Definition ledger_new : ledger := Ledger [].
(** Publisher::notify for Ledger (Vec::push), publisher.rs:36-40 *)
Definition ledger_notify (l : ledger) (e : E) : ledger := Ledger (l_events l ++ [e]).

(** HashsetLedger, publisher.rs:8-10, new / default, publisher.rs:18-30. The HashSet is a list in which no element
    occurs twice; its (unspecified) iteration order is not modelled. *)
Record hashset_ledger := HashsetLedger { h_events : list E }.
Definition hashset_new : hashset_ledger := HashsetLedger [].
(** Publisher::notify for HashsetLedger (HashSet::insert), publisher.rs:12-16. [eqb] is the event type's [Eq]. *)
Definition hashset_notify (eqb : E -> E -> bool) (h : hashset_ledger) (e : E) : hashset_ledger :=
  if existsb (eqb e) (h_events h) then h else HashsetLedger (e :: h_events h).

(** CallbackPublisher, publisher.rs:54-56. A subscriber is identified by a value of type S; what calling it does is
    not modelled, only that it is called with the event. *)
Context {S : Type}.
Record callback_publisher := CallbackPublisher { subscribers : list S }.
(** CallbackPublisher::new / default, publisher.rs:58-63,76-80 *)
Definition callback_new : callback_publisher := CallbackPublisher [].
(** CallbackPublisher::attach, publisher.rs:65-67 *)
Definition callback_attach (p : callback_publisher) (f : S) : callback_publisher := CallbackPublisher (subscribers p ++ [f]).
(** Publisher::notify for CallbackPublisher, publisher.rs:70-74: the calls made, in order *)
Definition callback_notify (p : callback_publisher) (e : E) : list (S * E) := map (fun f => (f, e)) (subscribers p).
End Publisher.
Arguments ledger : clear implicits.
Arguments hashset_ledger : clear implicits.
Arguments callback_publisher : clear implicits.
