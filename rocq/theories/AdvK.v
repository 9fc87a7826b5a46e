(** Kernels of the ADER-DG solver for the advection equation (src/impl/advection/kernels) and the element updates with local time
    stepping (src/impl/advection/solvers/AderDg.hpp).

    The scalar type and its operations are arbitrary: no law of arithmetic is assumed in this file.
    Arrays [md][cr] are flat lists in row-major order, arrays of arrays are lists of flat lists; per-element arrays are lists over the
    elements, a null pointer in the second and third time buffer is an empty list (whose access fails).  A pointer to an entry of an
    array is the rest of the list.
    Simplifications: two assignments of one loop body to different arrays are two loops; the branches inside of the loops over the
    modes, whose conditions do not depend on the mode, are branches between loops; local arrays are passed as [junk], whose content is
    arbitrary; alignment and memory management are not modelled.  The build with MPI is modelled; in the build without, every entry of
    the send and receive pointers is null. *)
From Verif Require Import Util MeshConn MatMul Sparse Lts Ader.

Section K.
Context {T : Type}.
Variables (zero one : T) (add sub mul div : T -> T -> T) (opp : T -> T) (ofN : nat -> T) (isz : T -> bool).
Variable cf : conf.

Local Notation nDi := (nDis (cEl cf)).
Local Notation nMd := (nModes (cEl cf) (cSp cf)).
Local Notation nMdFa := (nModesFa (cEl cf) (cSp cf)).
Local Notation nFa := (nElFas (cEl cf)).
Local Notation nCr := (cCrs cf).
Local Notation run := (run_ zero add mul isz).
Local Notation AC := (kAC one cf).
Local Notation BC := (kBC one cf).

(** The three products of the kernels: matMulFusedAC and matMulFusedBC with alpha = 1 (see MatMul). *)

(** src/impl/advection/kernels/TimePred.hpp 74-80 with src/dg/TimePred.hpp 70-98: one set of transposed stiffness matrices, negated *)
Definition storeT (stiffT : list (list T)) : list (list T) := map (map opp) stiffT.

(** src/impl/advection/kernels/TimePred.hpp 112-151: one time derivative *)
Definition ckA_step (stiffT : list (list T)) (dT : T) (star : list T) (de : nat) (s : T * list T * list (list T) * list T) : res (T * list T * list (list T) * list T) :=
  let '(sca, scr, der, tInt) := s in
  d <- rd der de;; d <- zeroE zero cf 1 d;; der <- wr der de d;;
  '(scr, der) <- for_ 0 nDi (fun di s => let '(scr, der) := s in
    p <- rd der (de - 1);; m <- rd stiffT di;; scr <- run (AC 1 nMd nMd nMd nMd nMd zero) p m scr;;
    e <- rd der de;; e <- run (BC 1 nMd 1 1 nMd nMd one) (skipn di star) scr e;; der <- wr der de e;; Ok (scr, der)) (scr, der);;
  let sca := mul sca (div dT (ofN (de + 1))) in
  e <- rd der de;; tInt <- axpyE add mul cf 1 nMd sca e tInt;;
  Ok (sca, scr, der, tInt).
(** src/impl/advection/kernels/TimePred.hpp 91-153; [scr], [der], [tInt]: previous contents *)
Definition ckA (stiffT : list (list T)) (dT : T) (star dofs : list T) (scr : list T) (der : list (list T)) (tInt : list T) : res (list (list T) * list T) :=
  d <- rd der 0;; d <- copyE cf 1 dofs d;; der <- wr der 0 d;;
  tInt <- scaleE mul cf 1 dT dofs tInt;;
  '(_, _, der, tInt) <- for_ 1 (cTi cf) (ckA_step stiffT dT star) (dT, scr, der, tInt);;
  Ok (der, tInt).

(** src/impl/advection/kernels/TimePred.hpp 162-185 *)
Definition integrateA (dt : T) (der : list (list T)) (o : list T) : res (list T) :=
  d0 <- rd der 0;; o <- scaleE mul cf 1 dt d0 o;;
  '(_, o) <- for_ 1 (cTi cf) (fun de s => let '(sca, o) := s in
    let sca := mul sca (div dt (ofN (de + 1))) in
    d <- rd der de;; o <- axpyE add mul cf 1 nMd sca d o;; Ok (sca, o)) (dt, o);;
  Ok o.

(** src/impl/advection/kernels/VolInt.hpp 86-121 *)
Definition volA (stiff : list (list T)) (star tDofs scr dofs : list T) : res (list T) :=
  '(_, dofs) <- for_ 0 nDi (fun di s => let '(scr, dofs) := s in
    m <- rd stiff di;; scr <- run (AC 1 nMd nMd nMd nMd nMd zero) tDofs m scr;;
    dofs <- run (BC 1 nMd 1 nMd nMd nMd one) (skipn di star) scr dofs;; Ok (scr, dofs)) (scr, dofs);;
  Ok dofs.

(** The three-way product of a face: projection to the face with [F], multiplication with the flux solver, integration with [Ft].
    Models src/impl/advection/kernels/SurfInt.hpp 107-146, 179-216; [fs]: pointer to the flux solver. *)
Definition faceA (F Ft fs tDofs scr0 scr1 dofs : list T) : res (list T) :=
  scr0 <- run (AC 1 nMdFa nMd nMd nMdFa nMdFa zero) tDofs F scr0;;
  scr1 <- run (BC 1 nMdFa 1 1 nMdFa nMdFa zero) fs scr0 scr1;;
  run (AC 1 nMd nMdFa nMdFa nMd nMd one) scr1 Ft dofs.
(** src/impl/advection/kernels/SurfInt.hpp 102-148; [scr0], [scr1]: contents of the scratch memory *)
Definition surfLocalA (fLN fT : list (list T)) (fs tDofs scr0 scr1 dofs : list T) : res (list T) :=
  for_ 0 nFa (fun fa dofs => F <- rd fLN fa;; Ft <- rd fT fa;; faceA F Ft (skipn fa fs) tDofs scr0 scr1 dofs) dofs.
(** src/impl/advection/kernels/SurfInt.hpp 160-217; [vId]: None is numeric_limits::max() *)
Definition surfNeighA (fLN fT : list (list T)) (fa : nat) (vId : option nat) (fId : nat) (f : T) (tDofs scr0 scr1 dofs : list T) : res (list T) :=
  F <- rd fLN (match vId with Some v => nFa + v * nFa + fId | None => fa end);; Ft <- rd fT fa;;
  faceA F Ft [f] tDofs scr0 scr1 dofs.

(** Matrices of the kernels (members m_stiffT, m_stiff, m_fIntLN, m_fIntT of the kernels), star matrices and flux solvers of the elements *)
Record advS := { gStT : list (list T); gSt : list (list T); gLN : list (list T); gFT : list (list T); gStar : list (list T); gFs : list (list T) }.
(** Uninitialized local arrays: l_scratch and l_tmpProd, l_derBuffer, scratch of the faces, l_tDofs *)
Record advJ := { gjM : list T; gjD : list (list T); gjF0 : list T; gjF1 : list T; gjT : list T }.
Definition abuf := option (list (list T)).
(** DOFs, the three time buffers, the send buffers *)
Record advL := { aQ : list (list T); a0 : list (list T); a1 : list (list T); a2 : list (list T); aS : list abuf }.

(** o += i; o = a - b.  Models src/impl/advection/solvers/AderDg.hpp 229-232, 257-258, 355. *)
Definition addA (i o : list T) : res (list T) := loop3 cf 1 nMd (fun p o => y <- rd o p;; x <- rd i p;; wr o p (add y x)) o.
Definition diffA (a b o : list T) : res (list T) := loop3 cf 1 nMd (fun p o => x <- rd a p;; y <- rd b p;; wr o p (sub x y)) o.

(** Data sent to the partition behind face [fa].  Models src/impl/advection/solvers/AderDg.hpp 241-265. *)
Definition sendA (fl : ltsFlags) (c : N) (firstTs : bool) (t0 t1 t2 : list T) (fa : nat) (b : abuf) : res abuf :=
  match b with
  | None => Ok None
  | Some b =>
    eq <- rd (fAdEq fl) fa;; lt <- rd (fAdLt fl) fa;;
    b <- (if has c eq then o <- rd b 0;; o <- copyE cf 1 t0 o;; wr b 0 o
          else if has c lt then if firstTs then Ok b else o <- rd b 0;; o <- copyE cf 1 t1 o;; wr b 0 o
          else o <- rd b 0;; o <- copyE cf 1 t2 o;; b <- wr b 0 o;;
               p <- rd b 1;; p <- diffA t0 t2 p;; wr b 1 p);;
    Ok (Some b)
  end.

(** Local step of one element.  Models src/impl/advection/solvers/AderDg.hpp 211-275; [dt], [hdt]: i_dt and 0.5*i_dt in the precision of the
    DOFs. *)
Definition localA (S : advS) (fl : ltsFlags) (chars : list N) (firstTs : bool) (dt hdt : T) (J : advJ) (el : nat) (s : advL) : res advL :=
  star <- rd (gStar S) el;; q <- rd (aQ s) el;; t0 <- rd (a0 s) el;;
  '(der, t0) <- ckA (gStT S) dt star q (gjM J) (gjD J) t0;;
  n0 <- wr (a0 s) el t0;;
  c <- rd chars el;;
  t1 <- rd (a1 s) el;;
  t1 <- (if has c (fElLt fl) then t1 <- (if firstTs then zeroE zero cf 1 t1 else Ok t1);; addA t0 t1 else Ok t1);;
  n1 <- wr (a1 s) el t1;;
  t2 <- rd (a2 s) el;;
  t2 <- (if has c (fElGt fl) then integrateA hdt der t2 else Ok t2);;
  n2 <- wr (a2 s) el t2;;
  nS <- for_ 0 nFa (fun fa sd => b <- rd sd (el * nFa + fa);; b <- sendA fl c firstTs t0 t1 t2 fa b;; wr sd (el * nFa + fa) b) (aS s);;
  q <- volA (gSt S) star t0 (gjM J) q;;
  fs <- rd (gFs S) el;; q <- surfLocalA (gLN S) (gFT S) fs t0 (gjF0 J) (gjF1 J) q;;
  nq <- wr (aQ s) el q;;
  Ok {| aQ := nq; a0 := n0; a1 := n1; a2 := n2; aS := nS |}.
(** Models src/impl/advection/solvers/AderDg.hpp 199-277 (local). *)
Definition localsA S fl chars firstTs dt hdt J (first nEls : nat) (s : advL) : res advL :=
  for_ first (first + nEls) (localA S fl chars firstTs dt hdt J) s.

(** Mesh and boundary conditions: sparse types of the faces, mask OUTFLOW, i_elFa, i_elFaEl, i_fIdElFaEl, i_vIdElFaEl; None is numeric_limits::max() *)
Record advM := { mCh : list N; mOut : N; mElFa : list (list nat); mElFaEl : list (list (option nat)); mFId : list (list nat); mVId : list (list (option nat)) }.

(** Neighbouring time integrated DOFs.  Models src/impl/advection/solvers/AderDg.hpp 332-375. *)
Definition neighDataA (fl : ltsFlags) (c : N) (firstTs : bool) (t0s t1s t2s : list (list T)) (ne : option nat) (rv : abuf) (fa : nat) (jn : list T) : res (list T) :=
  match rv with
  | Some b => lt <- rd (fAdLt fl) fa;; p <- rd b (if has c lt then if firstTs then 0 else 1 else 0);; copyE cf 1 p jn
  | None =>
    eq <- rd (fAdEq fl) fa;; gt <- rd (fAdGt fl) fa;; lt <- rd (fAdLt fl) fa;;
    match ne with
    | None => Er Eub
    | Some ne =>
      if has c eq then a <- rd t0s ne;; copyE cf 1 a jn
      else if has c gt then a <- rd t1s ne;; copyE cf 1 a jn
      else _ <- check (has c lt);;
        if firstTs then a <- rd t2s ne;; copyE cf 1 a jn
        else a <- rd t0s ne;; b <- rd t2s ne;; diffA a b jn
    end
  end.

(** Contribution of one face.  Models src/impl/advection/solvers/AderDg.hpp 318-389; [recv]: None is the null pointer i_recvDofs. *)
Definition neighFaceA (S : advS) (fl : ltsFlags) (M : advM) (c : N) (firstTs : bool) (t0s t1s t2s : list (list T)) (recv : option (list abuf)) (J : advJ) (el fa : nat) (q : list T) : res (list T) :=
  fid <- rd2 (mElFa M) el fa;; ch <- rd (mCh M) fid;;
  let out := has ch (mOut M) in
  ne <- (if out then Ok (Some el) else rd2 (mElFaEl M) el fa);;
  rv <- match recv with None => Ok None | Some r => rd r (el * nFa + fa) end;;
  t <- neighDataA fl c firstTs t0s t1s t2s ne rv fa (gjT J);;
  vId <- (if out then Ok None else rd2 (mVId M) el fa);;
  fId <- (if out then Ok 0 else rd2 (mFId M) el fa);;
  f <- rd2 (gFs S) el (nFa + fa);;
  surfNeighA (gLN S) (gFT S) fa vId fId f t (gjF0 J) (gjF1 J) q.
(** One element, all elements.  Models src/impl/advection/solvers/AderDg.hpp 302-392 (neigh). *)
Definition neighElA S fl M (chars : list N) firstTs t0s t1s t2s recv J (el : nat) (dofs : list (list T)) : res (list (list T)) :=
  c <- rd chars el;; q <- rd dofs el;;
  q <- for_ 0 nFa (neighFaceA S fl M c firstTs t0s t1s t2s recv J el) q;; wr dofs el q.
Definition neighA S fl M chars firstTs t0s t1s t2s recv J (first nEls : nat) (dofs : list (list T)) : res (list (list T)) :=
  for_ first (first + nEls) (neighElA S fl M chars firstTs t0s t1s t2s recv J) dofs.
End K.
