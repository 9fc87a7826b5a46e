(** A simulation from end to end: the schedulers, workers and messages of all ranks (DistModel.v) drive the local and neighbouring steps of the
    solver's elements (AderEl.v).

    Models  src/impl/seismic/steps.inc:24-104 and src/time/Manager.cpp:116-190: what a worker does with a package it got.
            src/parallel/MpiRemix.cpp:72-147: the messages of the communication structure, face by face.

    Simplifications:
    - the elements of all ranks are numbered in one sequence, [rankOf] is the rank of an element;
    - the work of a package is done at once when the worker finishes it (C02, C06: nobody writes what it reads in the meantime);
    - no point sources; no rupture elements. *)
From Verif Require Import Util SchedModel DistModel AderLtsSpec.

Section End.
Context {T : Type}.
Variables (G : gcfg) (uN nFa : nat) (mesh : nat -> nat -> face) (lvl : nat -> nat) (cross : nat -> nat -> bool).
(** rank of an element, and if it has faces at the partition boundary (1) or not (0) *)
Variables (rankOf reg : nat -> nat).
(** elements (first, number) of a package: rank, time group, inner or send elements, worker; for the local and neighbouring steps.
    Models src/impl/seismic/setup.inc:334-399 *)
Variables (pkL pkN : nat -> nat -> nat -> nat -> nat * nat).
(** faces of the elements which send the messages of a channel *)
Variable chF : nat -> list (nat * nat).
(** receivers' points in time of the elements in a step of a rank's time group *)
Variable pts : nat -> nat -> nat -> nat -> list T.

Definition inPk (p : nat * nat) (el : nat) : Prop := fst p <= el < fst p + snd p.

(** Distribution of the elements: every element is in one package of its rank and time group; the two elements of a face belong to the same
    rank or the face is in exactly one channel, which connects their ranks and time groups; elements with such faces are send elements. *)
Definition packages (pk : nat -> nat -> nat -> nat -> nat * nat) : Prop :=
  (forall r g e w, r < gR G -> g < gT G -> e < 2 -> w < gW G r -> fst (pk r g e w) + snd (pk r g e w) <= uN /\
     forall el, inPk (pk r g e w) el -> rankOf el = r /\ lvl el = g /\ reg el = e) /\
  forall el, el < uN -> exists w, w < gW G (rankOf el) /\ inPk (pk (rankOf el) (lvl el) (reg el) w) el /\
    forall w', w' < gW G (rankOf el) -> inPk (pk (rankOf el) (lvl el) (reg el) w') el -> w' = w.
Definition distributed : Prop :=
  (forall el, el < uN -> rankOf el < gR G /\ lvl el < gT G /\ reg el < 2) /\
  packages pkL /\ packages pkN /\
  (forall i el fa, i < length (gC G) -> In (el, fa) (chF i) -> el < uN /\ fa < nFa /\ cross el fa = true /\ exists ne v f, mesh el fa = Inner ne v f /\
     reg el = 1 /\ cS (ch G i) = rankOf el /\ cG (ch G i) = lvl el /\ cR (ch G i) = rankOf ne /\ cH (ch G i) = lvl ne) /\
  (forall i, i < length (gC G) -> NoDup (chF i)) /\
  (forall i j el fa, i < length (gC G) -> j < length (gC G) -> In (el, fa) (chF i) -> In (el, fa) (chF j) -> i = j) /\
  (forall el fa ne v f, el < uN -> fa < nFa -> mesh el fa = Inner ne v f -> if cross el fa then exists i, i < length (gC G) /\ In (el, fa) (chF i) else rankOf ne = rankOf el).

(** Steps of the solver by one step of the schedulers, workers and messages: a finished package, sends which begin, a receive which completes. *)
Definition behind (p : nat * nat) : list (@sop T) := match mesh (fst p) (snd p) with Inner ne _ f => [ORecv ne f] | _ => [] end.
Definition opsOf (s : gst) (l : glabel) : list (@sop T) :=
  match l with
  | GSched r => match rstep (rcfg G r) (rk s r) (LSched (mpi_answer G s r)) with
      | Next _ (Some (EvSend lt g)) => flat_map (fun i => if matchS (ch G i) r lt g then map (fun p => OSend (fst p) (snd p)) (chF i) else []) (seq 0 (length (gC G)))
      | _ => [] end
  | GWork r (LDone w) => match cur (rk s r) w with
      | Busy g e => let k := nTs (tg (rk s r) g) in
          if e <? 2 then [OLocal g (fst (pkL r g e w)) (snd (pkL r g e w)) k (pts r g k)]
          else if 4 <=? e then [ONeigh g (fst (pkN r g (e - 4) w)) (snd (pkN r g (e - 4) w)) k] else []
      | _ => [] end
  | GTestR i => if rAct (net s i) then flat_map behind (chF i) else []
  | _ => []
  end.

(** The steps of the solver in the first [j] steps of an execution. *)
Fixpoint opsUpTo (st : nat -> gst) (la : nat -> option glabel) (j : nat) : list (@sop T) :=
  match j with 0 => [] | S j => opsUpTo st la j ++ match la j with Some l => opsOf (st j) l | None => [] end end.
End End.
