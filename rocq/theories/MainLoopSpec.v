(** Specification of a run of the solver: the times which are simulated, and the snapshots with the time at which they are taken. *)
From Verif Require Import Util TimeGroup MainLoop.
From Coq Require Import QArith.
Local Open Scope Q_scope.

(** time simulated by the events *)
Fixpoint total (es : list ev) : Q := match es with [] => 0 | Sim T :: r => T + total r | Wf _ _ :: r => total r end.
(** number of the file and simulated time of every snapshot, if the first event happens at time [t] *)
Fixpoint shots (t : Q) (es : list ev) : list (nat * Q) :=
  match es with [] => [] | Sim T :: r => shots (t + T) r | Wf k _ :: r => (k, t) :: shots t r end.
(** [t] is the instant number [k] of an interval: not later, and less than the tolerance earlier *)
Definition instant (tol int : Q) (k : nat) (t : Q) : Prop := Qnat k * int - tol < t /\ t <= Qnat k * int.
