(** Time step information of a rate-2 time group. Models src/time/TimeGroupStatic.cpp:36-111 and TimeGroupStatic.h:237-248.
    Simplifications: exact rational arithmetic instead of double precision; unbounded integers; the counters of predictions,
    updates and messages are part of SchedModel.v; the pointers to the buffers are not modelled. *)
From Verif Require Import Util.
From Coq Require Import QArith Qround.
Open Scope nat_scope.

Record tgt := mkTgt {
  funMul : nat; maxDiv' : nat;              (* m_funMul, m_maxDiv *)
  nTsSync : nat; nTsPer : nat; nTsReqFull : nat;
  covSim : Q;                               (* m_covSimTime *)
  dtCur : Q; dtFull : Q; dtSync : Q          (* m_dt, m_dtFull, m_dtSync *)
}.

(** a loop doubling [m_] for each index in [a, b). Models TimeGroupStatic.cpp:47-55. *)
Definition dbl (n : nat) : nat := Nat.iter n (fun m => m * 2) 1.

(** Models TimeGroupStatic.cpp:36-67; the initial time steps (largest double) are the parameter [big]. *)
Definition tg_new (nTgs tgId : nat) (big : Q) : tgt :=
  mkTgt (dbl tgId) (dbl (nTgs - (tgId + 1))) 0 0 0 0%Q big big big.

(** Models TimeGroupStatic.cpp:94-101. *)
Definition setDt (t : tgt) : tgt :=
  mkTgt (funMul t) (maxDiv' t) (nTsSync t) (nTsPer t) (nTsReqFull t) (covSim t)
        (if nTsSync t <? nTsReqFull t then dtFull t else dtSync t) (dtFull t) (dtSync t).

Definition Qnat (n : nat) : Q := inject_Z (Z.of_nat n).

(** Models TimeGroupStatic.cpp:69-92; the conversion to size_t of line 82 truncates. *)
Definition setUp (dtFun time : Q) (t : tgt) : tgt :=
  let dtMax := (dtFun * Qnat (funMul t * maxDiv' t))%Q in
  let nMax := Z.to_nat (Qfloor (time / dtMax)%Q) in
  let sync := ((time - Qnat nMax * dtMax) / Qnat (maxDiv' t))%Q in
  setDt (mkTgt (funMul t) (maxDiv' t) 0 (nTsPer t) (nMax * maxDiv' t) (covSim t) (dtCur t)
               (dtFun * Qnat (funMul t))%Q
               (if Qle_bool 0 sync then sync else 0%Q)).

(** Models TimeGroupStatic.cpp:103-111. *)
Definition updateTsInfo (t : tgt) : tgt :=
  setDt (mkTgt (funMul t) (maxDiv' t) (S (nTsSync t)) (S (nTsPer t)) (nTsReqFull t) (covSim t + dtCur t)%Q
               (dtCur t) (dtFull t) (dtSync t)).

(** Models TimeGroupStatic.h:246-248. *)
Definition finishedT (t : tgt) : bool := nTsSync t =? nTsReqFull t + maxDiv' t.
(** Models TimeGroupStatic.h:237-239. *)
Definition lastTimeStepT (t : tgt) : bool := nTsSync t =? nTsReqFull t + maxDiv' t - 1.

(** the loop of the schedulers: update while not finished; [None] if not finished after [fuel] updates *)
Fixpoint advance (fuel : nat) (t : tgt) : option tgt :=
  if finishedT t then Some t else match fuel with 0 => None | S f => advance f (updateTsInfo t) end.
