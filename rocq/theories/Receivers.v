(** Receivers (src/io/Receivers.cpp, src/io/inc/setup_recv.inc) and their use in the time step
    (src/impl/seismic/solvers/AderDg.hpp).

    Simplifications of this file:
    - times are exact rationals; the type of the values and its operations are arbitrary, so that all results about values hold bit by bit;
    - every receiver has its own file (the names of the receivers are pairwise different) which can be opened; the header of the file
      is left out, the file is the list of its rows;
    - the projection to the mesh, the mapping to the reference element and the evaluation of the basis functions are an oracle [geo],
      which yields the evaluated basis or nothing if one of the checks of the reference coordinates fails. *)
From Coq Require Import QArith Qabs.
From Verif Require Import Util Series Distr.
Open Scope nat_scope.

Section Receivers.
Variable T : Type.
Variables (zero : T) (add mul : T -> T -> T).
(** N_QUANTITIES, N_ELEMENT_MODES, N_CRUNS *)
Variables (nQt nMd nCr : nat).

(** src/io/Receivers.h 39-62; without coordinates and path, with the contents of the file *)
Record recv := mkRecv {
  rId : nat; rNBuff : nat; rBuffer : list T; rBuffTime : list Q; rTime : Q; rTg : nat; rEn : nat; rEnTg : nat; rEva : list T;
  rFile : list (Q * list T) }.

(** src/io/Receivers.h 63-76 *)
Record recvs := mkRecvs { recvL : list recv; spEnToRecv : list nat; buffSize : nat; freq : Q }.

(** ** Initialisation *)

(** src/io/Receivers.cpp 69-147: lambda l_addEn; state: m_recvs and m_spEnToRecv *)
Definition addEn (nRecvs : nat) (deIds : list nat) (geo : nat -> nat -> option (list T)) (bSize : nat) (time : Q)
    (tg en enTg : nat) (s : list recv * list nat) : res (list recv * list nat) :=
  for_ 0 nRecvs (fun re s =>
    d <- rd deIds re;;
    if en =? d then
      let '(rs, sp) := s in
      sp <- (if 0 <? length rs then
               l <- rd rs (length rs - 1);;
               Ok (if rEn l <? en then sp ++ [length rs] else sp)
             else Ok (sp ++ [0]));;
      eva <- match geo en re with Some e => Ok e | None => Er Echeck end;;
      Ok (rs ++ [mkRecv re 0 (repeat zero (nQt * nCr * bSize)) (repeat 0%Q bSize) time tg en enTg eva []], sp)
    else Ok s) s.

(** src/io/Receivers.cpp 33-180; [deIds] is the result of ptToEn (lines 58-66) *)
Definition init (nTgs : nat) (nIn nSe : list nat) (nRecvs : nat) (deIds : list nat) (geo : nat -> nat -> option (list T))
    (fr : Q) (bSize : nat) (time : Q) : res recvs :=
  let grp (cnts : list nat) := fun tg '(off, s) =>
    n <- rd cnts tg;;
    s <- for_ 0 n (fun en s => addEn nRecvs deIds geo bSize time tg (en + off) en s) s;;
    Ok (off + n, s) in
  s <- for_ 0 nTgs (grp nIn) (0, ([], []));;
  '(_, (rs, sp)) <- for_ 0 nTgs (grp nSe) s;;
  Ok (mkRecvs rs sp bSize fr).

(** src/io/Receivers.cpp 224-233 *)
Definition getEnRecv (st : recvs) : res (list nat) :=
  for_ 0 (length (spEnToRecv st)) (fun en o =>
    re <- rd (spEnToRecv st) en;;
    _ <- check (re <? length (recvL st));;
    r <- rd (recvL st) re;;
    Ok (o ++ [rEn r])) [].

(** src/io/inc/setup_recv.inc 44-52: the flag RECEIVER of the sparse types of the elements *)
Definition setFlags (enRecv : list nat) (flags : list bool) : res (list bool) :=
  for_ 0 (length enRecv) (fun re fl => en <- rd enRecv re;; wr fl en true) flags.

(** ** Sampling *)

(** src/io/Receivers.cpp 235-248; nothing: no output expected (negative return value); the check in line 242 is implied by line 239 *)
Definition getRecvTimeRel (tol : Q) (st : recvs) (spEn : nat) (time dt : Q) : res (option Q) :=
  re <- rd (spEnToRecv st) spEn;;
  r <- rd (recvL st) re;;
  if qlt (time - tol) (rTime r) && qlt (rTime r) (time + dt - tol) then
    let d := (rTime r - time)%Q in
    _ <- check (qlt (- tol) d);;
    Ok (Some (Qabs d))
  else Ok None.

(** src/io/Receivers.cpp 261-285: body of the loop of writeRecvAll; [dofs] is the array [N_QUANTITIES][N_ELEMENT_MODES][N_CRUNS] *)
Definition writeOne (bSize : nat) (fr : Q) (dofs : list T) (r : recv) : res recv :=
  _ <- check (rNBuff r <? bSize);;
  let pos := fun qt cr => rNBuff r * nQt * nCr + qt * nCr + cr in
  b <- for_ 0 nQt (fun qt b =>
    b <- for_ 0 nCr (fun cr b => wr b (pos qt cr) zero) b;;
    for_ 0 nMd (fun md b =>
      for_ 0 nCr (fun cr b =>
        e <- rd (rEva r) md;;
        d <- rd dofs ((qt * nMd + md) * nCr + cr);;
        v <- rd b (pos qt cr);;
        wr b (pos qt cr) (add v (mul e d))) b) b) (rBuffer r);;
  t <- wr (rBuffTime r) (rNBuff r) (rTime r);;
  Ok (mkRecv (rId r) (rNBuff r + 1) b t (rTime r + fr) (rTg r) (rEn r) (rEnTg r) (rEva r) (rFile r)).

(** src/io/Receivers.cpp 250-290 *)
Definition writeRecvAll (spEn : nat) (dofs : list T) (st : recvs) : res recvs :=
  _ <- check (spEn <? length (spEnToRecv st));;
  first <- rd (spEnToRecv st) spEn;;
  _ <- check (first <? length (recvL st));;
  r0 <- rd (recvL st) first;;
  l <- forb first (length (recvL st)) (fun re l =>
    r <- rd l re;;
    if rEn r =? rEn r0 then
      r' <- writeOne (buffSize st) (freq st) dofs r;;
      l' <- wr l re r';; Ok (l', false)
    else Ok (l, true)) (recvL st);;
  Ok (mkRecvs l (spEnToRecv st) (buffSize st) (freq st)).

(** src/io/Receivers.cpp 292-318 *)
Definition flush (r : recv) : res recv :=
  f <- (if 0 <? rNBuff r then
          for_ 0 (rNBuff r) (fun bu f =>
            t <- rd (rBuffTime r) bu;;
            vs <- for_ 0 (nQt * nCr) (fun va vs => v <- rd (rBuffer r) (bu * (nQt * nCr) + va);; Ok (vs ++ [v])) [];;
            Ok (f ++ [(t, vs)])) (rFile r)
        else Ok (rFile r));;
  Ok (mkRecv (rId r) 0 (rBuffer r) (rBuffTime r) (rTime r) (rTg r) (rEn r) (rEnTg r) (rEva r) f).

(** src/io/Receivers.cpp 320-323, called by the destructor (src/io/Receivers.h 102) *)
Definition flushAll (st : recvs) : res recvs :=
  l <- for_ 0 (length (recvL st)) (fun re l => r <- rd l re;; r' <- flush r;; wr l re r') (recvL st);;
  Ok (mkRecvs l (spEnToRecv st) (buffSize st) (freq st)).

(** src/io/Receivers.cpp 325-329; nBuff never exceeds the size of the buffer, see the invariant in Props_Recv.v *)
Definition flushIf (thresh : nat) (st : recvs) : res recvs :=
  l <- for_ 0 (length (recvL st)) (fun re l =>
    r <- rd l re;;
    if buffSize st - rNBuff r <? thresh then r' <- flush r;; wr l re r' else Ok l) (recvL st);;
  Ok (mkRecvs l (spEnToRecv st) (buffSize st) (freq st)).

(** ** Use in the time step *)

(** src/impl/seismic/solvers/AderDg.hpp 478-492: while loop of one element; [pred]: the DOFs of the time prediction at a relative time *)
Fixpoint sampleEl (fuel : nat) (tol : Q) (spEn : nat) (time dt : Q) (pred : Q -> list T) (st : recvs) : res recvs :=
  match fuel with
  | O => Er Efuel
  | S fuel =>
      p <- getRecvTimeRel tol st spEn time dt;;
      match p with
      | None => Ok st
      | Some p => st <- writeRecvAll spEn (pred p) st;; sampleEl fuel tol spEn time dt pred st
      end
  end.

(** src/impl/seismic/solvers/AderDg.hpp 475-494 within the loop over the elements of a work package: the part of the local update
    which writes receivers; [enRe] is the first sparse receiver entity of the package; [pred el] is the time prediction of element el *)
Definition localRecvs (fuel : nat) (tol : Q) (flags : list bool) (first nEls enRe : nat) (time dt : Q) (pred : nat -> Q -> list T)
    (st : recvs) : res recvs :=
  '(_, st) <- for_ first (first + nEls) (fun el '(enRe, st) =>
    f <- rd flags el;;
    if (f : bool) then st <- sampleEl fuel tol enRe time dt (pred el) st;; Ok (enRe + 1, st) else Ok (enRe, st)) (enRe, st);;
  Ok st.

End Receivers.

(** ** Search of the entities of points *)

Section Search.
Variable V : Type.
Variable leb : V -> V -> bool.
(** std::numeric_limits< TL_T_REAL >::max() *)
Variable vmax : V.

Definition ltb (a b : V) : bool := negb (leb b a).

(** src/data/SparseEntities.hpp 899-929 for one point and one rank: closest entity and its distance; the distance of the point
    to the entities, computed by GeomT::norm and Geom::closestPoint, is an oracle.  [None] is the invalid id. *)
Definition closestEn (nEns : nat) (dist : nat -> V) : option nat * V :=
  fold_left (fun '(o, d) en => if ltb (dist en) d then (Some en, dist en) else (o, d)) (seq 0 nEns) (None, vmax).

(** src/data/SparseEntities.hpp 873-951 for one point and all ranks; [nEns] and [dist] by rank *)
Definition ptToEn (imax nRanks : nat) (nEns : nat -> nat) (dist : nat -> nat -> V) (rank : nat) : option nat :=
  if ownsMin leb imax nRanks (fun r => snd (closestEn (nEns r) (dist r))) rank then fst (closestEn (nEns rank) (dist rank)) else None.
End Search.
