(** Local time stepping of a whole partition: the scheme as a recurrence of the elements' states, and schedules of local and
    neighbouring steps which respect the dependencies of the elements' updates. *)
From Coq Require Import Ring.
From Verif Require Import Util MeshConn MatMul Props_Mat Sparse Lts Ader AderSpec Props_Ader AderEl AderElSpec.
Local Open Scope nat_scope.

(** what is behind a face: outflow boundary, free surface, or face [f] of element [ne], whose vertices are rotated by [v] *)
Inductive face := Outflow | Free | Inner (ne v f : nat).

Section Scheme.
Context {T : Type}.
Variables (A : alg T) (cf : conf) (U : @setup T).
(** mesh, time groups of the elements, time step and half of the time step of every update of the groups *)
Variables (mesh : nat -> nat -> face) (lvl : nat -> nat) (dt hdt : nat -> nat -> T).
Local Notation add := (aAdd A).
Local Notation sub := (aSub A).
Local Notation nFa := (nElFas (cEl cf)).
Local Notation state := (@state T).

Definition isOut (el fa : nat) : bool := match mesh el fa with Outflow => true | _ => false end.
(** matrix which projects the data of the element behind the face *)
Definition matId (el fa : nat) : nat := match mesh el fa with Inner _ v f => nFa + (v * nFa + f) | _ => fa end.
(** time group of the element compared with the one behind the face *)
Definition rel (el fa : nat) : comparison := match mesh el fa with Inner ne _ _ => Nat.compare (lvl el) (lvl ne) | _ => Eq end.
Definition anyRel (r : comparison) (el : nat) : bool := existsb (fun fa => match rel el fa, r with Lt, Lt | Gt, Gt | Eq, Eq => true | _, _ => false end) (seq 0 nFa).

(** integrals of the prediction of update [k] of an element over its time step, over its first half *)
Definition full (Q : nat -> nat -> state) (el k : nat) : nat -> nat -> T := fst (predInt A cf U el (dt (lvl el) k) (Q el k)).
Definition half (Q : nat -> nat -> state) (el k : nat) : nat -> nat -> T := fst (predInt A cf U el (hdt (lvl el) k) (Q el k)).
(** the data of the element behind the face over the time interval of update [k] of element [el]: of the same update, of the two updates
    of the next smaller time group, of the first or of the second half of the update of the next larger time group *)
Definition data (Q : nat -> nat -> state) (el fa k : nat) : nat -> nat -> T :=
  match mesh el fa with
  | Inner ne _ _ =>
    match Nat.compare (lvl el) (lvl ne) with
    | Eq => full Q ne k
    | Gt => fun x y => add (full Q ne (2 * k) x y) (full Q ne (2 * k + 1) x y)
    | Lt => if Nat.even k then half Q ne (k / 2) else fun x y => sub (full Q ne (k / 2) x y) (half Q ne (k / 2) x y)
    end
  | _ => full Q el k
  end.
(** one update of an element: volume and own surface terms of its prediction, surface terms of the neighbours *)
Definition update (Q : nat -> nat -> state) (el k : nat) : state :=
  plus A (plus A (Q el k) (ownTerms A cf U el (predInt A cf U el (dt (lvl el) k) (Q el k))))
    (neighTerms A cf U el (isOut el) (matId el) (fun fa => data Q el fa k)).
Definition eqSt (a b : state) : Prop := (forall x y, fst a x y = fst b x y) /\ (forall rm x y, snd a rm x y = snd b rm x y).
(** the states [Q el k] of element [el] after k updates *)
Definition scheme (q0 : nat -> state) (Q : nat -> nat -> state) : Prop :=
  forall el, el < uN U -> Q el 0 = q0 el /\ forall k, eqSt (Q el (S k)) (update Q el k).

(** *** Schedules *)
(** The elements may be distributed to partitions: [cross el fa], the face is shared by two of them, data is exchanged by messages.
    Step [k] of the elements [first, first + n) of time group [lv], with the times of the receivers for a local step; a message which is
    sent from or arrives at face [fa] of element [el]. *)
Variable cross : nat -> nat -> bool.
Inductive sop := OLocal (lv first n k : nat) (pts : nat -> list T) | ONeigh (lv first n k : nat) | OSend (el fa : nat) | ORecv (el fa : nat).

(** [L el], [N el]: number of local and neighbouring steps of an element so far, [Se el fa], [R el fa]: number of messages sent and received.
    Number of messages which were filled by the local steps; which are not needed anymore: if the element behind the face has larger time
    steps, a message is filled in every second local step, a message received is for two neighbouring steps. *)
Definition filled (L : nat -> nat) (el fa : nat) : nat := match rel el fa with Lt => L el / 2 | _ => L el end.
Definition used (N : nat -> nat) (el fa : nat) : nat := match rel el fa with Lt => N el / 2 | _ => N el end.

(** A local step may be done if the element's last update is finished, the time buffers which it overwrites are not needed anymore, and
    the messages it overwrites have been sent; a neighbouring step, if the time buffers of the neighbours are there, or their messages.
    A message may arrive if the previous one is not needed anymore. *)
Definition ready (L N : nat -> nat) (Se R : nat -> nat -> nat) (op : sop) : Prop :=
  match op with
  | OLocal lv first n k _ => first + n <= uN U /\ forall el, first <= el < first + n -> lvl el = lv /\ L el = N el /\ k = L el /\
      forall fa ne v f, fa < nFa -> mesh el fa = Inner ne v f ->
        if cross el fa then rel el fa = Lt /\ Nat.even (L el) = true \/ filled L el fa <= Se el fa
        else match Nat.compare (lvl el) (lvl ne) with Eq => L el <= N ne | Lt => Nat.even (L el) = true -> L el <= 2 * N ne | Gt => 2 * L el <= N ne end
  | ONeigh lv first n k => first + n <= uN U /\ forall el, first <= el < first + n -> lvl el = lv /\ L el = S (N el) /\ k = N el /\
      forall fa ne v f, fa < nFa -> mesh el fa = Inner ne v f ->
        if cross el fa then match rel el fa with Lt => N el < 2 * R el fa | _ => N el < R el fa end
        else match Nat.compare (lvl el) (lvl ne) with Eq => N el < L ne | Gt => 2 * N el + 2 <= L ne | Lt => N el < 2 * L ne end
  | OSend el fa => el < uN U /\ fa < nFa /\ cross el fa = true /\ (exists ne v f, mesh el fa = Inner ne v f) /\ Se el fa < filled L el fa
  | ORecv el fa => el < uN U /\ fa < nFa /\ cross el fa = true /\ exists ne v f, mesh el fa = Inner ne v f /\ R el fa < Se ne f /\ R el fa <= used N el fa
  end.
Definition bump (c : nat -> nat) (first n : nat) (el : nat) : nat := if (first <=? el) && (el <? first + n) then S (c el) else c el.
Definition bump2 (R : nat -> nat -> nat) (el fa : nat) (el' fa' : nat) : nat := if (el' =? el) && (fa' =? fa) then S (R el' fa') else R el' fa'.
Inductive schedule : list sop -> (nat -> nat) -> (nat -> nat) -> (nat -> nat -> nat) -> (nat -> nat -> nat) -> Prop :=
| Sch_nil : schedule [] (fun _ => 0) (fun _ => 0) (fun _ _ => 0) (fun _ _ => 0)
| Sch_local ops L N Se R lv first n k pts : schedule ops L N Se R -> ready L N Se R (OLocal lv first n k pts) ->
    schedule (ops ++ [OLocal lv first n k pts]) (bump L first n) N Se R
| Sch_neigh ops L N Se R lv first n k : schedule ops L N Se R -> ready L N Se R (ONeigh lv first n k) -> schedule (ops ++ [ONeigh lv first n k]) L (bump N first n) Se R
| Sch_send ops L N Se R el fa : schedule ops L N Se R -> ready L N Se R (OSend el fa) -> schedule (ops ++ [OSend el fa]) L N (bump2 Se el fa) R
| Sch_recv ops L N Se R el fa : schedule ops L N Se R -> ready L N Se R (ORecv el fa) -> schedule (ops ++ [ORecv el fa]) L N Se (bump2 R el fa).

(** *** The code *)
(** arrays of the mesh; element types of the boundary conditions; adjacent elements differ by at most one time group.  An element of
    another partition is unknown; the rotation of a shared face is the same seen from both sides. *)
Definition meshOk (M : adj) : Prop := forall el fa, el < uN U -> fa < nFa -> exists fid ch, at2 (aElFa M) el fa fid /\ nth_error (aFaChars M) fid = Some ch /\
  match mesh el fa with
  | Outflow => has ch (aOut M) = true
  | Free => has ch (aOut M) = false /\ has ch (aFree M) = true
  | Inner ne v f => has ch (aOut M) = false /\ has ch (aFree M) = false /\ at2 (aVId M) el fa (Some v) /\ at2 (aFId M) el fa f /\
      v * nFa + f < nFluxN (cEl cf) /\ ne < uN U /\ f < nFa /\ cross ne f = cross el fa /\ (lvl el <= S (lvl ne) /\ lvl ne <= S (lvl el)) /\
      if cross el fa then (exists x, at2 (aElFaEl M) el fa x) /\ mesh ne f = Inner el v fa
      else at2 (aElFaEl M) el fa (Some ne) /\ exists v', mesh ne f = Inner el v' fa
  end.
(** flags of the elements *)
Definition charsOk (fl : ltsFlags) (chars : list N) : Prop := forall el, el < uN U -> exists c, nth_error chars el = Some c /\ elFlags fl c (anyRel Lt el) (anyRel Gt el) /\
  forall fa, fa < nFa -> says fl c fa (rel el fa).
(** initial arrays: DOFs; time buffers as needed, with any content; buffers of the messages at the faces between partitions only *)
Definition crosses (el fa : nat) : bool := match mesh el fa with Inner _ _ _ => cross el fa | _ => false end.
Definition msgs := list (list (list (list T))).
Definition initial (q0 : nat -> nat -> state) (s : @lstate T) (recv : list (@buffer T)) (net : msgs) : Prop := lshape cf U s /\ length recv = uN U * nFa /\ net = repeat [] (uN U * nFa) /\
  forall el, el < uN U -> holds A cf (nth el (lE s) []) (nth el (lA s) []) (fun z => q0 z el) /\
    length (nth el (l0 s) []) = nQtsE (cEl cf) * nModes (cEl cf) (cSp cf) * cCrs cf /\
    (anyRel Lt el = true -> length (nth el (l1 s) []) = nQtsE (cEl cf) * nModes (cEl cf) (cSp cf) * cCrs cf) /\
    (anyRel Gt el = true -> length (nth el (l2 s) []) = nQtsE (cEl cf) * nModes (cEl cf) (cSp cf) * cCrs cf) /\
    forall fa, fa < nFa -> if crosses el fa then exists b b', nth_error (lSend s) (at_ cf el fa) = Some (Some b) /\ bufferOk cf (rel el fa) b /\
        nth_error recv (at_ cf el fa) = Some (Some b') /\ bufferOk cf (CompOpp (rel el fa)) b'
      else nth_error (lSend s) (at_ cf el fa) = Some None /\ nth_error recv (at_ cf el fa) = Some None.

(** The steps of the solver, with the messages which were sent and have not arrived yet, in their order.  Sending appends the content of
    the send buffer to those of the face behind, receiving moves the first one to the receive buffer.  [mpi]: false, one partition without
    receive buffers. *)
Definition runOp (K : @kernels T) fl (M : adj) (chars : list N) (J : @junk T) (mpi : bool) (op : sop) (sr : @lstate T * list (@buffer T) * msgs) : res (lstate * list buffer * msgs) :=
  let '(s, recv, net) := sr in
  match op with
  | OLocal lv first n k pts =>
      s <- local (aZero A) (aOne A) add sub (aMul A) (aDiv A) (aOfN A) (aIsz A) cf K (uS U) fl chars (aVId M) (Nat.even k) (dt lv k) (hdt lv k) pts J first n s;; Ok (s, recv, net)
  | ONeigh lv first n k =>
      '(dE, dA, x0, x1) <- neigh (aZero A) add sub (aMul A) (aIsz A) cf K (uS U) fl M chars (Nat.even k) (l0 s) (l1 s) (l2 s) (if mpi then Some recv else None) J first n (lE s, lA s, sFa0 (lScr s), sFa1 (lScr s));;
      Ok ({| lE := dE; lA := dA; l0 := l0 s; l1 := l1 s; l2 := l2 s; lSend := lSend s; lRec := lRec s; lScr := {| sTmp := sTmp (lScr s); sDer := sDer (lScr s); sFa0 := x0; sFa1 := x1 |} |}, recv, net)
  | OSend el fa => match mesh el fa with
      | Inner ne _ f => b <- rd (lSend s) (at_ cf el fa);; match b with None => Er Eub | Some b => q <- rd net (at_ cf ne f);; net <- wr net (at_ cf ne f) (q ++ [b]);; Ok (s, recv, net) end
      | _ => Er Echeck end
  | ORecv el fa => q <- rd net (at_ cf el fa);; match q with
      | b :: q => recv <- wr recv (at_ cf el fa) (Some b);; net <- wr net (at_ cf el fa) q;; Ok (s, recv, net)
      | [] => Er Echeck end
  end.
Fixpoint runOps K fl M chars J mpi (ops : list sop) (s : @lstate T * list (@buffer T) * msgs) : res (lstate * list buffer * msgs) :=
  match ops with [] => Ok s | op :: ops => s <- runOp K fl M chars J mpi op s;; runOps K fl M chars J mpi ops s end.
End Scheme.
