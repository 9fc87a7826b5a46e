(** Kernels of the ADER-DG solver for seismic wave propagation (src/impl/seismic/kernels), vanilla version, and their matrices.

    The scalar type and its operations are arbitrary: no law of arithmetic is assumed in this file.
    Arrays [qt][md][cr] are flat lists in row-major order; arrays of arrays ([de][qt][md][cr], [rm][qt][md][cr], [di][..]) are lists of
    flat lists.
    Simplifications: two assignments of one loop body to different arrays are two loops; local arrays are passed as [junk], whose
    content is arbitrary; the prefetching arguments are not modelled; alignment and memory management are not modelled. *)
From Verif Require Import Util MeshConn MatMul.

(** src/constants.hpp 112-125 (CE_N_ELEMENT_MODES) *)
Definition nModes (el : elType) (o : nat) : nat :=
  match el with QUAD4R => o * o | TRIA3 => (o * o + o) / 2 | HEX8R => o * o * o | TET4 => o * (o + 1) * (o + 2) / 6 end.
(** src/constants.hpp 134-141 (CE_N_ELEMENT_MODES_CK); the unsigned subtraction does not wrap, if i_der <= i_order *)
Definition nModesCk (el : elType) (o de : nat) : nat :=
  match el with TRIA3 | TET4 => nModes el (o - de) | _ => nModes el o end.
(** src/constants.hpp 112-125 (CE_N_ELEMENT_MODES) of the faces *)
Definition nModesFa (el : elType) (o : nat) : nat :=
  match el with QUAD4R | TRIA3 => o | HEX8R => o * o | TET4 => (o * o + o) / 2 end.
(** src/constants.hpp 178-184 (CE_N_FLUXN_MATRICES) *)
Definition nFluxN (el : elType) : nat := match el with QUAD4R | TRIA3 => nElFas el | HEX8R => 6 | TET4 => 12 end.
(** src/impl/seismic/const.inc 31-43 (CE_N_QTS_E, CE_N_QTS_M) *)
Definition nQtsE (el : elType) : nat := match nDis el with 2 => 5 | _ => 9 end.
Definition nQtsM (el : elType) : nat := match nDis el with 2 => 3 | _ => 6 end.

(** template parameters of the kernels: element type, order in space and in time, fused simulations, relaxation mechanisms *)
Record conf := { cEl : elType; cSp : nat; cTi : nat; cCrs : nat; cRms : nat }.

Section Kernels.
Context {T : Type}.
Variables (zero one : T) (add sub mul div : T -> T -> T) (opp : T -> T) (ofN : nat -> T) (isz : T -> bool).
Variable cf : conf.

Local Notation nDi := (nDis (cEl cf)).
Local Notation nMd := (nModes (cEl cf) (cSp cf)).
Local Notation nMdFa := (nModesFa (cEl cf) (cSp cf)).
Local Notation nFa := (nElFas (cEl cf)).
Local Notation ck_ := (nModesCk (cEl cf) (cSp cf)).
Local Notation nE := (nQtsE (cEl cf)).
Local Notation nM := (nQtsM (cEl cf)).
Local Notation nCr := (cCrs cf).
Local Notation nRm := (cRms cf).

(** loop nest over the quantities, the first [n] modes and the simulations: [body] gets the position of the entry *)
Definition loop3 (nq n : nat) (body : nat -> list T -> res (list T)) (o : list T) : res (list T) :=
  for_ 0 nq (fun qt o => for_ 0 n (fun md o => for_ 0 nCr (fun cr o => body (qt * nMd * nCr + md * nCr + cr) o) o) o) o.

(** o = 0, o = i, o = s*i, o += s*i *)
Definition zeroE (nq : nat) (o : list T) : res (list T) := loop3 nq nMd (fun p o => wr o p zero) o.
Definition copyE (nq : nat) (i o : list T) : res (list T) := loop3 nq nMd (fun p o => x <- rd i p;; wr o p x) o.
Definition scaleE (nq : nat) (s : T) (i o : list T) : res (list T) := loop3 nq nMd (fun p o => x <- rd i p;; wr o p (mul s x)) o.
Definition axpyE (nq n : nat) (s : T) (i o : list T) : res (list T) :=
  loop3 nq n (fun p o => y <- rd o p;; x <- rd i p;; wr o p (add y (mul s x))) o.

(** a kernel: m, n, k, ldA, ldB, ldC, beta, fused AC or BC; alpha is 1 *)
Definition kAC (m n k ldA ldB ldC : nat) (beta : T) : @vanilla T := Build_vanilla m n k ldA ldB ldC one beta true false nCr.
Definition kBC (m n k ldA ldB ldC : nat) (beta : T) : @vanilla T := Build_vanilla m n k ldA ldB ldC one beta false true nCr.
Definition run_ := vanillaRun add mul zero isz.
Definition kern (ks : list (list (@vanilla T))) (g i : nat) : res vanilla := k <- rd ks g;; rd k i.

(** *** Time prediction *)

(** src/dg/TimePred.hpp 70-98: copies the transposed stiffness matrices with a factor of -1; one set of matrices for all derivatives *)
Definition storeStiffT (stiffT : list (list T)) : list (list (list T)) := repeat (map (map opp) stiffT) (cTi cf - 1).

(** src/impl/seismic/kernels/TimePredVanilla.hpp 99-160 *)
Definition genTime : res (list (list vanilla)) :=
  ks <- for_ 1 (cTi cf) (fun de ks =>
    ks <- vanillaAdd 0 (kAC nE (ck_ de) (ck_ (de - 1)) nMd nMd nMd zero) ks;;
    vanillaAdd 1 (kBC nE (ck_ de) nE nE nMd nMd one) ks) [];;
  if 0 <? nRm then
    ks <- vanillaAdd 2 (kBC nM (ck_ 1) nDi nDi nMd nMd one) ks;;
    vanillaAdd 2 (kBC nM nMd nM nM nMd nMd one) ks
  else Ok ks.

(** src/impl/seismic/kernels/TimePredVanilla.hpp 240-305: one time derivative.  State: scalar, scratch, elastic and anelastic
    derivatives, elastic and anelastic time integrated DOFs. *)
Definition ckState := (T * list T * list (list T) * list (list (list T)) * list T * list (list T))%type.
Definition ckStep (ks : list (list vanilla)) (stiffT : list (list (list T))) (rfs : list T) (dT : T) (starE starA srcA : list (list T)) (junk : list T)
    (de : nat) (s : ckState) : res ckState :=
  let '(sca, scr, dE, dA, tE, tA) := s in
  let re := if nRm =? 0 then de else 1 in
  e <- rd dE de;; e <- zeroE nE e;; dE <- wr dE de e;;
  sA <- zeroE nM junk;;
  '(scr, dE, sA) <- for_ 0 nDi (fun di s => let '(scr, dE, sA) := s in
    k <- kern ks 0 (re - 1);; p <- rd dE (de - 1);; m <- rd2 stiffT (re - 1) di;; scr <- run_ k p m scr;;
    k <- kern ks 1 (re - 1);; a <- rd starE di;; e <- rd dE de;; e <- run_ k a scr e;; dE <- wr dE de e;;
    if 0 <? nRm then k <- kern ks 2 0;; a <- rd starA di;; sA <- run_ k a (skipn (nM * nMd * nCr) scr) sA;; Ok (scr, dE, sA)
    else Ok (scr, dE, sA)) (scr, dE, sA);;
  let sca := mul sca (div dT (ofN (de + 1))) in
  '(dE, dA, tA) <- for_ 0 nRm (fun rm s => let '(dE, dA, tA) := s in
    d <- rd dA rm;; p <- rd d (de - 1);;
    k <- kern ks 2 1;; w <- rd srcA rm;; e <- rd dE de;; e <- run_ k w p e;; dE <- wr dE de e;;
    rf <- rd rfs rm;;
    c <- rd d de;; c <- loop3 nM nMd (fun i c => x <- rd sA i;; y <- rd p i;; wr c i (mul rf (add x y))) c;;
    t <- rd tA rm;; t <- axpyE nM nMd sca c t;;
    d <- wr d de c;; dA <- wr dA rm d;; tA <- wr tA rm t;; Ok (dE, dA, tA)) (dE, dA, tA);;
  let nCp := if nRm =? 0 then ck_ de else nMd in
  e <- rd dE de;; tE <- axpyE nE nCp sca e tE;;
  Ok (sca, scr, dE, dA, tE, tA).

(** src/impl/seismic/kernels/TimePredVanilla.hpp 200-306 *)
Definition ckVanilla (ks : list (list vanilla)) (stiffT : list (list (list T))) (rfs : list T) (dT : T) (starE starA srcA : list (list T))
    (dofsE : list T) (dofsA : list (list T)) (junk scr : list T) (dE : list (list T)) (dA : list (list (list T))) (tE : list T) (tA : list (list T)) : res ckState :=
  e <- rd dE 0;; e <- copyE nE dofsE e;; dE <- wr dE 0 e;;
  tE <- scaleE nE dT dofsE tE;;
  '(dA, tA) <- for_ 0 nRm (fun rm s => let '(dA, tA) := s in
    q <- rd dofsA rm;; d <- rd dA rm;; c <- rd d 0;; c <- copyE nM q c;; d <- wr d 0 c;; dA <- wr dA rm d;;
    t <- rd tA rm;; t <- scaleE nM dT q t;; tA <- wr tA rm t;; Ok (dA, tA)) (dA, tA);;
  for_ 1 (cTi cf) (ckStep ks stiffT rfs dT starE starA srcA junk) (dT, scr, dE, dA, tE, tA).

(** src/impl/seismic/kernels/TimePred.hpp 130-156 *)
Definition evalPred (pts : list T) (der : list (list T)) (pre : list (list T)) : res (list (list T)) :=
  for_ 0 (length pts) (fun pt pre =>
    t <- rd pts pt;; d0 <- rd der 0;; o <- rd pre pt;; o <- copyE nE d0 o;;
    '(_, o) <- for_ 1 (cTi cf) (fun de s => let '(sca, o) := s in
      let sca := mul sca (div t (ofN de)) in
      d <- rd der de;; o <- axpyE nE (ck_ de) sca d o;; Ok (sca, o)) (one, o);;
    wr pre pt o) pre.

(** src/impl/seismic/kernels/TimePred.hpp 165-202 *)
Definition integrate (dt : T) (der : list (list T)) (o : list T) : res (list T) :=
  d0 <- rd der 0;; o <- scaleE nE dt d0 o;;
  '(_, o) <- for_ 1 (cTi cf) (fun de s => let '(sca, o) := s in
    let sca := mul sca (div dt (ofN (de + 1))) in
    let nCp := if nRm =? 0 then ck_ de else nMd in
    d <- rd der de;; o <- axpyE nE nCp sca d o;; Ok (sca, o)) (dt, o);;
  Ok o.

(** *** Volume integration *)

(** src/impl/seismic/kernels/VolIntVanilla.hpp 96-154 *)
Definition genVol : res (list (list vanilla)) :=
  ks <- vanillaAdd 0 (kAC nE nMd (ck_ 1) nMd nMd nMd zero) [];;
  ks <- vanillaAdd 0 (kBC nE nMd nE nE nMd nMd one) ks;;
  if 0 <? nRm then
    ks <- vanillaAdd 1 (kBC nM nMd nDi nDi nMd nMd one) ks;;
    vanillaAdd 1 (kBC nM nMd nM nM nMd nMd one) ks
  else Ok ks.

(** src/impl/seismic/kernels/VolIntVanilla.hpp 189-241 *)
Definition volInt (ks : list (list vanilla)) (stiff : list (list T)) (rfs : list T) (starE starA srcA : list (list T))
    (tE : list T) (tA : list (list T)) (junk dofsE : list T) (dofsA : list (list T)) (scr : list T) : res (list T * list (list T) * list T) :=
  sA <- zeroE nM junk;;
  '(scr, dofsE, sA) <- for_ 0 nDi (fun di s => let '(scr, dofsE, sA) := s in
    k <- kern ks 0 0;; m <- rd stiff di;; scr <- run_ k tE m scr;;
    k <- kern ks 0 1;; a <- rd starE di;; dofsE <- run_ k a scr dofsE;;
    if 0 <? nRm then k <- kern ks 1 0;; a <- rd starA di;; sA <- run_ k a (skipn (nM * nMd * nCr) scr) sA;; Ok (scr, dofsE, sA)
    else Ok (scr, dofsE, sA)) (scr, dofsE, sA);;
  '(dofsE, dofsA) <- for_ 0 nRm (fun rm s => let '(dofsE, dofsA) := s in
    k <- kern ks 1 1;; w <- rd srcA rm;; t <- rd tA rm;; dofsE <- run_ k w t dofsE;;
    rf <- rd rfs rm;; q <- rd dofsA rm;;
    q <- loop3 nM nMd (fun i q => z <- rd q i;; x <- rd sA i;; y <- rd t i;; wr q i (add z (mul rf (sub x y)))) q;;
    dofsA <- wr dofsA rm q;; Ok (dofsE, dofsA)) (dofsE, dofsA);;
  Ok (dofsE, dofsA, scr).

(** *** Surface integration *)

(** src/impl/seismic/kernels/SurfIntVanilla.hpp 105-175 *)
Definition genSurf : res (list (list vanilla)) :=
  ks <- vanillaAdd 0 (kAC nE nMdFa nMd nMd nMdFa nMdFa zero) [];;
  ks <- vanillaAdd 0 (kBC nE nMdFa nE nE nMdFa nMdFa zero) ks;;
  ks <- vanillaAdd 0 (kAC nE nMd nMdFa nMdFa nMd nMd one) ks;;
  ks <- vanillaAdd 1 (kBC nM nMdFa nE nE nMdFa nMdFa zero) ks;;
  vanillaAdd 1 (kAC nM nMd nMdFa nMdFa nMd nMd one) ks.

(** src/impl/seismic/kernels/SurfInt.hpp 127-130 *)
Definition fMatId (vId fId : nat) : nat := vId * nFa + fId.

(** src/impl/seismic/kernels/SurfInt.hpp 139-156 *)
Definition scatterUpdateA (rfs : list T) (up : list T) (dofsA : list (list T)) : res (list (list T)) :=
  for_ 0 nRm (fun rm dofsA => rf <- rd rfs rm;; q <- rd dofsA rm;; q <- axpyE nM nMd rf up q;; wr dofsA rm q) dofsA.

(** src/impl/seismic/kernels/SurfIntVanilla.hpp 212-262; [scr0], [scr1]: the two parts of the scratch memory *)
Definition surfLocal (ks : list (list vanilla)) (fIntLN fIntT : list (list T)) (rfs : list T) (fsE fsA : list (list T))
    (tE : list T) (junk dofsE : list T) (dofsA : list (list T)) (scr0 scr1 : list T) : res (list T * list (list T) * list T * list T) :=
  upA <- zeroE nM junk;;
  '(scr0, scr1, dofsE, upA) <- for_ 0 nFa (fun fa s => let '(scr0, scr1, dofsE, upA) := s in
    k <- kern ks 0 0;; m <- rd fIntLN fa;; scr0 <- run_ k tE m scr0;;
    k <- kern ks 0 1;; f <- rd fsE fa;; scr1 <- run_ k f scr0 scr1;;
    k <- kern ks 0 2;; m <- rd fIntT fa;; dofsE <- run_ k scr1 m dofsE;;
    if 0 <? nRm then
      k <- kern ks 1 0;; f <- rd fsA fa;; scr1 <- run_ k f scr0 scr1;;
      k <- kern ks 1 1;; m <- rd fIntT fa;; upA <- run_ k scr1 m upA;; Ok (scr0, scr1, dofsE, upA)
    else Ok (scr0, scr1, dofsE, upA)) (scr0, scr1, dofsE, upA);;
  dofsA <- (if 0 <? nRm then scatterUpdateA rfs upA dofsA else Ok dofsA);;
  Ok (dofsE, dofsA, scr0, scr1).

(** src/impl/seismic/kernels/SurfIntVanilla.hpp 274-293; [vId]: None is numeric_limits::max() *)
Definition neighFluxInt (ks : list (list vanilla)) (fIntLN : list (list T)) (fa : nat) (vId : option nat) (fId : nat) (tE o : list T) : res (list T) :=
  let id := match vId with Some v => nFa + fMatId v fId | None => fa end in
  k <- kern ks 0 0;; m <- rd fIntLN id;; run_ k tE m o.

(** src/impl/seismic/kernels/SurfIntVanilla.hpp 310-357; [pre]: the data after the first face integration, None is nullptr *)
Definition surfNeigh (ks : list (list vanilla)) (fIntLN fIntT : list (list T)) (fa : nat) (vId : option nat) (fId : nat) (fsE fsA : list T)
    (tE : list T) (pre : option (list T)) (dofsE upA scr0 scr1 : list T) : res (list T * list T * list T * list T) :=
  '(fi, scr0) <- match pre with
    | None => o <- neighFluxInt ks fIntLN fa vId fId tE scr0;; Ok (o, o)
    | Some p => Ok (p, scr0)
    end;;
  k <- kern ks 0 1;; scr1 <- run_ k fsE fi scr1;;
  k <- kern ks 0 2;; m <- rd fIntT fa;; dofsE <- run_ k scr1 m dofsE;;
  if 0 <? nRm then
    k <- kern ks 1 0;; scr1 <- run_ k fsA fi scr1;;
    k <- kern ks 1 1;; m <- rd fIntT fa;; upA <- run_ k scr1 m upA;; Ok (dofsE, upA, scr0, scr1)
  else Ok (dofsE, upA, scr0, scr1).

End Kernels.
