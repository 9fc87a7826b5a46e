(** Specification of the advection solver with local time stepping: the scheme as a recurrence of the elements' states, and schedules of local and neighbouring steps and of messages which
    respect the dependencies of the elements' updates. *)
From Coq Require Import Ring.
From Verif Require Import Util MeshConn MatMul Props_Mat Sparse Lts Ader AderSpec Props_Ader AdvK AdvKSpec AdvKV AderElSpec AderLtsSpec.
Local Open Scope nat_scope.

(** what is behind a face: the boundary, or face [f] of element [ne], whose vertices are rotated by [v] *)
Inductive nbr := Outer | Next (ne v f : nat).

Section Scheme.
Context {T : Type}.
(** [S]: matrices, star matrices and flux solvers; [n]: number of elements *)
Variables (A : alg T) (cf : conf) (S : @advS T) (n : nat).
(** mesh, time groups of the elements, time step and half of the time step of every update of the groups *)
Variables (mesh : nat -> nat -> nbr) (lvl : nat -> nat) (dt hdt : nat -> nat -> T).
Local Notation zero := (aZero A).
Local Notation add := (aAdd A).
Local Notation sub := (aSub A).
Local Notation nDi := (nDis (cEl cf)).
Local Notation nMd := (nModes (cEl cf) (cSp cf)).
Local Notation nMdFa := (nModesFa (cEl cf) (cSp cf)).
Local Notation nFa := (nElFas (cEl cf)).
Local Notation nCr := (cCrs cf).
Local Notation rep1 := (rep1 A cf).

(** sizes of the matrices *)
Definition goodA : Prop := 1 <= cTi cf /\ sized nDi (nMd * nMd) (gStT S) /\ sized nDi (nMd * nMd) (gSt S) /\ fluxMatrices cf (gLN S) (gFT S) /\ sized n nDi (gStar S) /\ sized n (nFa * 2) (gFs S).
Definition junkA (J : @advJ T) : Prop := length (gjM J) = nMd * nCr /\ sized (cTi cf) (nMd * nCr) (gjD J) /\ length (gjF0 J) = nMdFa * nCr /\ length (gjF1 J) = nMdFa * nCr /\ length (gjT J) = nMd * nCr.

Definition starOf (el : nat) : list T := nth el (gStar S) [].
(** flux solvers of face [fa]: own one, the one of the data behind the face *)
Definition fsOwn (el fa : nat) : T := nth fa (nth el (gFs S) []) zero.
Definition fsNeigh (el fa : nat) : T := nth (nFa + fa) (nth el (gFs S) []) zero.
(** integral of the prediction over [0, t] *)
Definition predI (el : nat) (t : T) (q : nat -> T) : nat -> T := predS A cf (volK A cf (gStT S)) (starOf el) t q.
(** volume and local surface terms for the time integral [t]; surface terms of the data [d fa] behind the faces, projected with the matrices [id fa] *)
Definition ownA (el : nat) (t : nat -> T) (y : nat) : T :=
  add (opS A cf (volK A cf (gSt S)) (starOf el) t y) (sum A nFa (fun fa => surfS A cf (fsOwn el fa) (nth fa (gLN S) []) (nth fa (gFT S) []) t y)).
Definition neighT (el : nat) (id : nat -> nat) (d : nat -> nat -> T) (y : nat) : T :=
  sum A nFa (fun fa => surfS A cf (fsNeigh el fa) (nth (id fa) (gLN S) []) (nth fa (gFT S) []) (d fa) y).

(** matrix which projects the data of the element behind the face; the boundary mirrors the own data *)
Definition matA (el fa : nat) : nat := match mesh el fa with Next _ v f => nFa + (v * nFa + f) | Outer => fa end.
(** time group of the element compared with the one behind the face *)
Definition relA (el fa : nat) : comparison := match mesh el fa with Next ne _ _ => Nat.compare (lvl el) (lvl ne) | Outer => Eq end.
Definition anyA (r : comparison) (el : nat) : bool := existsb (fun fa => match relA el fa, r with Lt, Lt | Gt, Gt | Eq, Eq => true | _, _ => false end) (seq 0 nFa).

(** integrals of the prediction of update [k] of an element over its time step, over its first half *)
Definition fullA (Q : nat -> nat -> nat -> T) (el k : nat) : nat -> T := predI el (dt (lvl el) k) (Q el k).
Definition halfA (Q : nat -> nat -> nat -> T) (el k : nat) : nat -> T := predI el (hdt (lvl el) k) (Q el k).
(** the data of the element behind the face over the time interval of update [k] of element [el]: of the same update, of the two updates of the next smaller time group, of the first or of
    the second half of the update of the next larger time group *)
Definition dataA (Q : nat -> nat -> nat -> T) (el fa k : nat) : nat -> T :=
  match mesh el fa with
  | Next ne _ _ =>
    match Nat.compare (lvl el) (lvl ne) with
    | Eq => fullA Q ne k
    | Gt => fun y => add (fullA Q ne (2 * k) y) (fullA Q ne (2 * k + 1) y)
    | Lt => if Nat.even k then halfA Q ne (k / 2) else fun y => sub (fullA Q ne (k / 2) y) (halfA Q ne (k / 2) y)
    end
  | Outer => fullA Q el k
  end.
(** one update of an element *)
Definition updateA (Q : nat -> nat -> nat -> T) (el k y : nat) : T :=
  add (add (Q el k y) (ownA el (fullA Q el k) y)) (neighT el (matA el) (fun fa => dataA Q el fa k) y).
(** the states [Q el k] of element [el] after k updates *)
Definition schemeA (q0 : nat -> nat -> T) (Q : nat -> nat -> nat -> T) : Prop :=
  forall el, el < n -> (forall y, Q el 0 y = q0 el y) /\ forall k y, Q el (Datatypes.S k) y = updateA Q el k y.

(** *** Schedules *)
(** The elements may be distributed to partitions: [cross el fa], the face is shared by two of them, data is exchanged by messages.  Step [k] of the elements [first, first + m) of time group
    [lv]; a message which is sent from or arrives at face [fa] of element [el]. *)
Variable cross : nat -> nat -> bool.
Inductive aop := ALocal (lv first m k : nat) | ANeigh (lv first m k : nat) | ASend (el fa : nat) | ARecv (el fa : nat).
(** [L el], [N el]: number of local and neighbouring steps of an element so far, [Se el fa], [R el fa]: number of messages sent and received.  Messages filled by the local steps; not needed
    anymore: if the element behind the face has larger time steps, a message is filled in every second local step, a message received is for two neighbouring steps. *)
Definition filledA (L : nat -> nat) (el fa : nat) : nat := match relA el fa with Lt => L el / 2 | _ => L el end.
Definition usedA (N : nat -> nat) (el fa : nat) : nat := match relA el fa with Lt => N el / 2 | _ => N el end.
(** A local step may be done if the element's last update is finished, the time buffers which it overwrites are not needed anymore, and the messages it overwrites have been sent; a
    neighbouring step, if the time buffers of the neighbours are there, or their messages.  A message may arrive if the previous one is not needed anymore. *)
Definition readyA (L N : nat -> nat) (Se R : nat -> nat -> nat) (op : aop) : Prop :=
  match op with
  | ALocal lv first m k => first + m <= n /\ forall el, first <= el < first + m -> lvl el = lv /\ L el = N el /\ k = L el /\
      forall fa ne v f, fa < nFa -> mesh el fa = Next ne v f ->
        if cross el fa then relA el fa = Lt /\ Nat.even (L el) = true \/ filledA L el fa <= Se el fa
        else match Nat.compare (lvl el) (lvl ne) with Eq => L el <= N ne | Lt => Nat.even (L el) = true -> L el <= 2 * N ne | Gt => 2 * L el <= N ne end
  | ANeigh lv first m k => first + m <= n /\ forall el, first <= el < first + m -> lvl el = lv /\ L el = Datatypes.S (N el) /\ k = N el /\
      forall fa ne v f, fa < nFa -> mesh el fa = Next ne v f ->
        if cross el fa then match relA el fa with Lt => N el < 2 * R el fa | _ => N el < R el fa end
        else match Nat.compare (lvl el) (lvl ne) with Eq => N el < L ne | Gt => 2 * N el + 2 <= L ne | Lt => N el < 2 * L ne end
  | ASend el fa => el < n /\ fa < nFa /\ cross el fa = true /\ (exists ne v f, mesh el fa = Next ne v f) /\ Se el fa < filledA L el fa
  | ARecv el fa => el < n /\ fa < nFa /\ cross el fa = true /\ exists ne v f, mesh el fa = Next ne v f /\ R el fa < Se ne f /\ R el fa <= usedA N el fa
  end.
(** [bump], [bump2] of AderLtsSpec: the counters of a range of elements, of one face, increased by one *)
Inductive scheduleA : list aop -> (nat -> nat) -> (nat -> nat) -> (nat -> nat -> nat) -> (nat -> nat -> nat) -> Prop :=
| Sa_nil : scheduleA [] (fun _ => 0) (fun _ => 0) (fun _ _ => 0) (fun _ _ => 0)
| Sa_local ops L N Se R lv first m k : scheduleA ops L N Se R -> readyA L N Se R (ALocal lv first m k) -> scheduleA (ops ++ [ALocal lv first m k]) (bump L first m) N Se R
| Sa_neigh ops L N Se R lv first m k : scheduleA ops L N Se R -> readyA L N Se R (ANeigh lv first m k) -> scheduleA (ops ++ [ANeigh lv first m k]) L (bump N first m) Se R
| Sa_send ops L N Se R el fa : scheduleA ops L N Se R -> readyA L N Se R (ASend el fa) -> scheduleA (ops ++ [ASend el fa]) L N (bump2 Se el fa) R
| Sa_recv ops L N Se R el fa : scheduleA ops L N Se R -> readyA L N Se R (ARecv el fa) -> scheduleA (ops ++ [ARecv el fa]) L N Se (bump2 R el fa).

(** *** The code *)
(** arrays of the mesh; faces at the boundary are marked as outflow; adjacent elements differ by at most one time group.  An element of another partition is unknown. *)
Definition meshA (M : advM) : Prop := forall el fa, el < n -> fa < nFa -> exists fid ch, at2 (mElFa M) el fa fid /\ nth_error (mCh M) fid = Some ch /\
  match mesh el fa with
  | Outer => has ch (mOut M) = true
  | Next ne v f => has ch (mOut M) = false /\ at2 (mVId M) el fa (Some v) /\ at2 (mFId M) el fa f /\
      v * nFa + f < nFluxN (cEl cf) /\ ne < n /\ f < nFa /\ cross ne f = cross el fa /\ (lvl el <= Datatypes.S (lvl ne) /\ lvl ne <= Datatypes.S (lvl el)) /\
      (exists v', mesh ne f = Next el v' fa) /\ if cross el fa then exists x, at2 (mElFaEl M) el fa x else at2 (mElFaEl M) el fa (Some ne)
  end.
(** flags of the elements *)
Definition charsA (fl : ltsFlags) (chars : list N) : Prop := forall el, el < n -> exists c, nth_error chars el = Some c /\ elFlags fl c (anyA Lt el) (anyA Gt el) /\
  forall fa, fa < nFa -> says fl c fa (relA el fa).
(** a message holds the DOFs of one time integral, or of both halves *)
Definition bufA (r : comparison) (b : list (list T)) : Prop := sized (match r with Gt => 2 | _ => 1 end) (nMd * nCr) b.
(** initial arrays: DOFs; time buffers as needed, with any content; buffers of the messages at the faces between partitions only *)
Definition crossA (el fa : nat) : bool := match mesh el fa with Next _ _ _ => cross el fa | Outer => false end.
Definition shapeA (s : @advL T) : Prop := length (aQ s) = n /\ length (a0 s) = n /\ length (a1 s) = n /\ length (a2 s) = n /\ length (aS s) = n * nFa.
Definition initialA (q0 : nat -> nat -> nat -> T) (s : @advL T) (recv : list (@abuf T)) (net : @msgs T) : Prop := shapeA s /\ length recv = n * nFa /\ net = repeat [] (n * nFa) /\
  forall el, el < n -> rep1 nMd (nth el (aQ s) []) (fun z => q0 z el) /\ length (nth el (a0 s) []) = nMd * nCr /\
    (anyA Lt el = true -> length (nth el (a1 s) []) = nMd * nCr) /\ (anyA Gt el = true -> length (nth el (a2 s) []) = nMd * nCr) /\
    forall fa, fa < nFa -> if crossA el fa then exists b b', nth_error (aS s) (at_ cf el fa) = Some (Some b) /\ bufA (relA el fa) b /\
        nth_error recv (at_ cf el fa) = Some (Some b') /\ bufA (CompOpp (relA el fa)) b'
      else nth_error (aS s) (at_ cf el fa) = Some None /\ nth_error recv (at_ cf el fa) = Some None.

(** The steps of the solver, with the messages which were sent and have not arrived yet, in their order.  Sending appends the content of the send buffer to those of the face behind, receiving
    moves the first one to the receive buffer.  [mpi]: false, one partition without receive buffers. *)
Definition runA1 fl (M : advM) (chars : list N) (J : @advJ T) (mpi : bool) (op : aop) (sr : @advL T * list (@abuf T) * @msgs T) : res (advL * list abuf * msgs) :=
  let '(s, recv, net) := sr in
  match op with
  | ALocal lv first m k =>
      s <- localsA zero (aOne A) add sub (aMul A) (aDiv A) (aOfN A) (aIsz A) cf S fl chars (Nat.even k) (dt lv k) (hdt lv k) J first m s;; Ok (s, recv, net)
  | ANeigh lv first m k =>
      q <- neighA zero (aOne A) add sub (aMul A) (aIsz A) cf S fl M chars (Nat.even k) (a0 s) (a1 s) (a2 s) (if mpi then Some recv else None) J first m (aQ s);;
      Ok ({| aQ := q; a0 := a0 s; a1 := a1 s; a2 := a2 s; aS := aS s |}, recv, net)
  | ASend el fa => match mesh el fa with
      | Next ne _ f => b <- rd (aS s) (at_ cf el fa);; match b with None => Er Eub | Some b => q <- rd net (at_ cf ne f);; net <- wr net (at_ cf ne f) (q ++ [b]);; Ok (s, recv, net) end
      | Outer => Er Echeck end
  | ARecv el fa => q <- rd net (at_ cf el fa);; match q with
      | b :: q => recv <- wr recv (at_ cf el fa) (Some b);; net <- wr net (at_ cf el fa) q;; Ok (s, recv, net)
      | [] => Er Echeck end
  end.
Fixpoint runA fl M chars J mpi (ops : list aop) (s : @advL T * list (@abuf T) * @msgs T) : res (advL * list abuf * msgs) :=
  match ops with [] => Ok s | op :: ops => s <- runA1 fl M chars J mpi op s;; runA fl M chars J mpi ops s end.
End Scheme.
