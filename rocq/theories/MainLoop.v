(** The loop of the solver over the synchronization points. Models src/main.cpp:313-319,332-338,357-397, the settings of
    src/io/Config.cpp:304,310-318,379-389 with the defaults of src/io/Config.h:224, and the counter of src/io/WaveField.cpp:93,101,113.
    Simplifications: exact rational arithmetic instead of double precision; unbounded integers; the logging and the timers are left out;
    the calls of the time manager and of the wave field writer are recorded as events. *)
From Verif Require Import Util TimeGroup.
From Coq Require Import QArith.
Local Open Scope Q_scope.

(** std::min, std::max and comparisons of doubles *)
Definition qlt (a b : Q) : bool := negb (Qle_bool b a).
Definition qmin (a b : Q) : Q := if qlt b a then b else a.
Definition qmax (a b : Q) : Q := if qlt a b then b else a.
Definition qabs (a : Q) : Q := if qlt a 0 then - a else a.

(** what the user writes: the end time, the interval of the wave field if a type is given, the maximum synchronization interval if
    the node exists *)
Record xml := mkXml { xEnd : Q; xWf : option Q; xSync : option Q }.
Record conf := mkConf { endTime : Q; wfInt : Q; syncMax : Q }.
(** Models src/io/Config.cpp:304,310-318,379-389; [big] is the default of Config.h:224. *)
Definition config (tol big : Q) (x : xml) : res conf :=
  let wf := match xWf x with Some i => i | None => big end in
  _ <- check (qlt tol wf) ;;
  let sm := match xSync x with Some m => m | None => qmin ((1 # 20) * xEnd x) wf end in
  _ <- check (qlt tol sm) ;;
  Ok (mkConf (xEnd x) wf sm).

(** events: the manager simulates a time; the writer writes the file of a number, given a time *)
Inductive ev := Sim (t : Q) | Wf (file : nat) (t : Q).

(** l_simTime, l_syncInt, l_step, l_stepWf, and m_writeStep of the writer *)
Record mst := mkMst { simT : Q; syncI : Q; step : nat; stepWf : nat; wrStep : nat }.

(** one iteration. Models src/main.cpp:361-396. *)
Definition body (tol : Q) (c : conf) (s : mst) : list ev * mst :=
  let stepTime := qmin (qmax 0 (endTime c - simT s)) (syncI s) in
  let simTime := simT s + stepTime in
  let w := qlt (Qnat (stepWf s + 1) * wfInt c) (simTime + tol) in
  let stepWf' := if w then S (stepWf s) else stepWf s in
  let si := Qnat (stepWf' + 1) * wfInt c - simTime in
  let si := qmin si (syncMax c) in
  let si := qmin si (endTime c - simTime) in
  let si := if qlt si tol then endTime c else si in
  (Sim stepTime :: (if w then [Wf (wrStep s) stepTime] else []),
   mkMst simTime si (S (step s)) stepWf' (if w then S (wrStep s) else wrStep s)).

(** the loop. Models src/main.cpp:360. *)
Fixpoint loop (tol : Q) (c : conf) (fuel : nat) (s : mst) : res (list ev) :=
  if qlt tol (endTime c - simT s) then
    match fuel with
    | O => Er Efuel
    | S f => let '(es, s') := body tol c s in r <- loop tol c f s' ;; Ok (es ++ r)
    end
  else Ok [].

(** Models src/main.cpp:313-319,332-338,357-397. *)
Definition sync_loop (tol : Q) (c : conf) (fuel : nat) : res (list ev) :=
  let si := qmin (wfInt c) (syncMax c) in
  let si := if qlt (qabs si) tol then endTime c else si in
  let w0 := qlt (wfInt c) (endTime c) in
  r <- loop tol c fuel (mkMst 0 si 0 0 (if w0 then 1%nat else 0%nat)) ;;
  Ok ((if w0 then [Wf 0 0] else []) ++ r).

Definition runMain (tol big : Q) (x : xml) (fuel : nat) : res (list ev) := c <- config tol big x ;; sync_loop tol c fuel.

(** the manager passes every simulated time to the time groups, which update until they are finished.
    Models src/time/Manager.cpp:201-205 (setUp) and the schedulers' updates; see C01-C09 for the schedulers. *)
Fixpoint groupRun (fuel : nat) (dt : Q) (es : list ev) (t : tgt) : option tgt :=
  match es with
  | [] => Some t
  | Sim T :: r => match advance fuel (setUp dt T t) with Some t' => groupRun fuel dt r t' | None => None end
  | Wf _ _ :: r => groupRun fuel dt r t
  end.
