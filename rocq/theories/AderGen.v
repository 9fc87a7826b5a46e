(** Kernels of the ADER-DG solver for seismic wave propagation, versions with LIBXSMM (src/impl/seismic/kernels: TimePredSingle, TimePredFused,
    VolIntSingle, VolIntFused, SurfIntSingle, SurfIntFused): the loops which both versions have in common.

    The calls of the matrix kernels are parameters ([mm..]), which AderSg.v and AderFu.v fill in for the two versions.
    The scalar type and its operations are arbitrary.  Simplifications: as in Ader.v. *)
From Verif Require Import Util MeshConn MatMul Ader.

Section Gen.
Context {T : Type}.
Variables (zero one : T) (add sub mul div : T -> T -> T) (opp : T -> T) (ofN : nat -> T) (isz : T -> bool).
Variable cf : conf.

Local Notation nDi := (nDis (cEl cf)).
Local Notation nMd := (nModes (cEl cf) (cSp cf)).
Local Notation nFa := (nElFas (cEl cf)).
Local Notation ck_ := (nModesCk (cEl cf) (cSp cf)).
Local Notation nE := (nQtsE (cEl cf)).
Local Notation nM := (nQtsM (cEl cf)).
Local Notation nRm := (cRms cf).

(** *** Time prediction *)
(** calls of the kernels: stiffness matrix (recursion, direction) with the last derivative and the scratch memory, elastic star matrix
    (recursion, direction) with the scratch memory and the derivative, anelastic star matrix (direction), source matrix (mechanism) *)
Variables (mmStiff mmStarE : nat -> nat -> list T -> list T -> res (list T)) (mmStarA mmSrc : nat -> list T -> list T -> res (list T)).
(** the buffer of the anelastic part is set to zero for all numbers of relaxation mechanisms, otherwise if there is one only *)
Variable zA : bool.

(** src/impl/seismic/kernels/TimePredSingle.hpp 229-295, src/impl/seismic/kernels/TimePredFused.hpp 449-524: one time derivative *)
Definition ckStepG (rfs : list T) (dT : T) (junk : list T) (de : nat) (s : @ckState T) : res ckState :=
  let '(sca, scr, dE, dA, tE, tA) := s in
  let re := if nRm =? 0 then de else 1 in
  e <- rd dE de;; e <- zeroE zero cf nE e;; dE <- wr dE de e;;
  sA <- (if zA || (0 <? nRm) then zeroE zero cf nM junk else Ok junk);;
  '(scr, dE, sA) <- for_ 0 nDi (fun di s => let '(scr, dE, sA) := s in
    p <- rd dE (de - 1);; scr <- mmStiff re di p scr;;
    e <- rd dE de;; e <- mmStarE re di scr e;; dE <- wr dE de e;;
    if 0 <? nRm then sA <- mmStarA di scr sA;; Ok (scr, dE, sA) else Ok (scr, dE, sA)) (scr, dE, sA);;
  let sca := mul sca (div dT (ofN (de + 1))) in
  '(dE, dA, tA) <- for_ 0 nRm (fun rm s => let '(dE, dA, tA) := s in
    d <- rd dA rm;; p <- rd d (de - 1);;
    e <- rd dE de;; e <- mmSrc rm p e;; dE <- wr dE de e;;
    rf <- rd rfs rm;;
    c <- rd d de;; c <- loop3 cf nM nMd (fun i c => x <- rd sA i;; y <- rd p i;; wr c i (mul rf (add x y))) c;;
    t <- rd tA rm;; t <- axpyE add mul cf nM nMd sca c t;;
    d <- wr d de c;; dA <- wr dA rm d;; tA <- wr tA rm t;; Ok (dE, dA, tA)) (dE, dA, tA);;
  let nCp := if nRm =? 0 then ck_ de else nMd in
  e <- rd dE de;; tE <- axpyE add mul cf nE nCp sca e tE;;
  Ok (sca, scr, dE, dA, tE, tA).

(** src/impl/seismic/kernels/TimePredSingle.hpp 192-296, src/impl/seismic/kernels/TimePredFused.hpp 407-525 *)
Definition ckG (rfs : list T) (dT : T) (dofsE : list T) (dofsA : list (list T)) (junk scr : list T) (dE : list (list T)) (dA : list (list (list T)))
    (tE : list T) (tA : list (list T)) : res ckState :=
  e <- rd dE 0;; e <- copyE cf nE dofsE e;; dE <- wr dE 0 e;;
  tE <- scaleE mul cf nE dT dofsE tE;;
  '(dA, tA) <- for_ 0 nRm (fun rm s => let '(dA, tA) := s in
    q <- rd dofsA rm;; d <- rd dA rm;; c <- rd d 0;; c <- copyE cf nM q c;; d <- wr d 0 c;; dA <- wr dA rm d;;
    t <- rd tA rm;; t <- scaleE mul cf nM dT q t;; tA <- wr tA rm t;; Ok (dA, tA)) (dA, tA);;
  for_ 1 (cTi cf) (ckStepG rfs dT junk) (dT, scr, dE, dA, tE, tA).

(** *** Volume integration *)
(** src/impl/seismic/kernels/VolIntSingle.hpp 216-229, src/impl/seismic/kernels/VolIntFused.hpp 421-436: relaxation mechanisms *)
Definition volRm (rfs : list T) (tA : list (list T)) (sA dofsE : list T) (dofsA : list (list T)) : res (list T * list (list T)) :=
  for_ 0 nRm (fun rm s => let '(dofsE, dofsA) := s in
    t <- rd tA rm;; dofsE <- mmSrc rm t dofsE;;
    rf <- rd rfs rm;; q <- rd dofsA rm;;
    q <- loop3 cf nM nMd (fun i q => z <- rd q i;; x <- rd sA i;; y <- rd t i;; wr q i (add z (mul rf (sub x y)))) q;;
    dofsA <- wr dofsA rm q;; Ok (dofsE, dofsA)) (dofsE, dofsA).

(** *** Surface integration *)
(** calls of the kernels: flux matrix (id) with the DOFs and the first scratch memory, elastic and anelastic flux solver with the first
    and second scratch memory, transposed flux matrix (face) with the second scratch memory and the elastic DOFs or the anelastic update *)
Variables (mmLN : nat -> list T -> list T -> res (list T)) (mmFsE mmFsA : list T -> list T -> list T -> res (list T)) (mmT mmTA : nat -> list T -> list T -> res (list T)).

(** src/impl/seismic/kernels/SurfIntSingle.hpp 198-255, src/impl/seismic/kernels/SurfIntFused.hpp 483-539 *)
Definition surfLocalG (rfs : list T) (fsE fsA : list (list T)) (tE junk dofsE : list T) (dofsA : list (list T)) (scr0 scr1 : list T)
    : res (list T * list (list T) * list T * list T) :=
  upA <- (if 0 <? nRm then zeroE zero cf nM junk else Ok junk);;
  '(scr0, scr1, dofsE, upA) <- for_ 0 nFa (fun fa s => let '(scr0, scr1, dofsE, upA) := s in
    scr0 <- mmLN fa tE scr0;;
    f <- rd fsE fa;; scr1 <- mmFsE f scr0 scr1;;
    dofsE <- mmT fa scr1 dofsE;;
    if 0 <? nRm then
      f <- rd fsA fa;; scr1 <- mmFsA f scr0 scr1;;
      upA <- mmTA fa scr1 upA;; Ok (scr0, scr1, dofsE, upA)
    else Ok (scr0, scr1, dofsE, upA)) (scr0, scr1, dofsE, upA);;
  dofsA <- (if 0 <? nRm then scatterUpdateA add mul cf rfs upA dofsA else Ok dofsA);;
  Ok (dofsE, dofsA, scr0, scr1).

(** src/impl/seismic/kernels/SurfIntSingle.hpp 267-289, src/impl/seismic/kernels/SurfIntFused.hpp 551-570 *)
Definition neighFluxIntG (fa : nat) (vId : option nat) (fId : nat) (tE o : list T) : res (list T) :=
  mmLN (match vId with Some v => nFa + fMatId cf v fId | None => fa end) tE o.

(** src/impl/seismic/kernels/SurfIntSingle.hpp 306-356, src/impl/seismic/kernels/SurfIntFused.hpp 586-636 *)
Definition surfNeighG (fa : nat) (vId : option nat) (fId : nat) (fsE fsA tE : list T) (pre : option (list T)) (dofsE upA scr0 scr1 : list T)
    : res (list T * list T * list T * list T) :=
  '(fi, scr0) <- match pre with
    | None => o <- neighFluxIntG fa vId fId tE scr0;; Ok (o, o)
    | Some p => Ok (p, scr0)
    end;;
  scr1 <- mmFsE fsE fi scr1;;
  dofsE <- mmT fa scr1 dofsE;;
  if 0 <? nRm then
    scr1 <- mmFsA fsA fi scr1;;
    upA <- mmTA fa scr1 upA;; Ok (dofsE, upA, scr0, scr1)
  else Ok (dofsE, upA, scr0, scr1).

End Gen.
