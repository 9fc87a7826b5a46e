(** Kernels of the ADER-DG solver for seismic wave propagation: LIBXSMM version for single forward simulations
    (src/impl/seismic/kernels/TimePredSingle.hpp, VolIntSingle.hpp, SurfIntSingle.hpp).

    The matrices are dense.  LIBXSMM is column-major: the operands are exchanged.  The common loops are in AderGen.v. *)
From Verif Require Import Util MeshConn MatMul Ader MmXsmm AderGen.

Section Single.
Context {T : Type}.
Variables (zero one : T) (add sub mul div : T -> T -> T) (opp : T -> T) (ofN : nat -> T).
Variable L : xsmm T.
Variable cf : conf.

Local Notation nDi := (nDis (cEl cf)).
Local Notation nMd := (nModes (cEl cf) (cSp cf)).
Local Notation nMdFa := (nModesFa (cEl cf) (cSp cf)).
Local Notation ck_ := (nModesCk (cEl cf) (cSp cf)).
Local Notation nE := (nQtsE (cEl cf)).
Local Notation nM := (nQtsM (cEl cf)).
Local Notation nRm := (cRms cf).
Local Notation kernels := (list (list gdesc)).

(** src/impl/seismic/kernels/TimePredSingle.hpp 97-151 *)
Definition genTimeS : res kernels :=
  for_ 1 (cTi cf) (fun de ks =>
    ks <- xAdd 0 (Build_gdesc (ck_ de) nE (ck_ (de - 1)) nMd nMd nMd false) ks;;
    ks <- xAdd 1 (Build_gdesc (ck_ de) nE nE nMd nE nMd true) ks;;
    if 0 <? nRm then
      ks <- xAdd 2 (Build_gdesc (ck_ 1) nM nDi nMd nDi nMd true) ks;;
      xAdd 2 (Build_gdesc nMd nM nM nMd nM nMd true) ks
    else Ok ks) [].

(** src/impl/seismic/kernels/TimePredSingle.hpp 249-263, 270-273: calls of the kernels *)
Definition sStiffT (ks : kernels) (stiffT : list (list (list T))) (re di : nat) (p scr : list T) : res (list T) :=
  k <- xKern ks 0 (re - 1);; m <- rd2 stiffT (re - 1) di;; xGemm L k m p scr.
Definition sStarE (ks : kernels) (starE : list (list T)) (re di : nat) (scr e : list T) : res (list T) :=
  k <- xKern ks 1 (re - 1);; a <- rd starE di;; xGemm L k scr a e.
Definition sStarA (ks : kernels) (g : nat) (starA : list (list T)) (di : nat) (scr sA : list T) : res (list T) :=
  k <- xKern ks g 0;; a <- rd starA di;; xGemm L k (skipn (nM * nMd * cCrs cf) scr) a sA.
Definition sSrc (ks : kernels) (g : nat) (srcA : list (list T)) (rm : nat) (p e : list T) : res (list T) :=
  k <- xKern ks g 1;; w <- rd srcA rm;; xGemm L k p w e.

(** src/impl/seismic/kernels/TimePredSingle.hpp 191-296; [stiffT]: src/impl/seismic/kernels/TimePredSingle.hpp 168-170 (storeStiffTDense) *)
Definition ckSingle (ks : kernels) (stiffT : list (list (list T))) (rfs : list T) (dT : T) (starE starA srcA : list (list T)) :=
  ckG zero add mul div ofN cf (sStiffT ks stiffT) (sStarE ks starE) (sStarA ks 2 starA) (sSrc ks 2 srcA) false rfs dT.

(** src/impl/seismic/kernels/VolIntSingle.hpp 94-144 *)
Definition genVolS : res kernels :=
  ks <- xAdd 0 (Build_gdesc nMd nE (ck_ 1) nMd nMd nMd false) [];;
  ks <- xAdd 0 (Build_gdesc nMd nE nE nMd nE nMd true) ks;;
  if 0 <? nRm then
    ks <- xAdd 1 (Build_gdesc nMd nM nDi nMd nDi nMd true) ks;;
    xAdd 1 (Build_gdesc nMd nM nM nMd nM nMd true) ks
  else Ok ks.

(** src/impl/seismic/kernels/VolIntSingle.hpp 179-230 *)
Definition volSingle (ks : kernels) (stiff : list (list T)) (rfs : list T) (starE starA srcA : list (list T))
    (tE : list T) (tA : list (list T)) (junk dofsE : list T) (dofsA : list (list T)) (scr : list T) : res (list T * list (list T) * list T) :=
  sA <- zeroE zero cf nM junk;;
  '(scr, dofsE, sA) <- for_ 0 nDi (fun di s => let '(scr, dofsE, sA) := s in
    k <- xKern ks 0 0;; m <- rd stiff di;; scr <- xGemm L k m tE scr;;
    k <- xKern ks 0 1;; a <- rd starE di;; dofsE <- xGemm L k scr a dofsE;;
    if 0 <? nRm then sA <- sStarA ks 1 starA di scr sA;; Ok (scr, dofsE, sA) else Ok (scr, dofsE, sA)) (scr, dofsE, sA);;
  '(dofsE, dofsA) <- volRm add sub mul cf (sSrc ks 1 srcA) rfs tA sA dofsE dofsA;;
  Ok (dofsE, dofsA, scr).

(** src/impl/seismic/kernels/SurfIntSingle.hpp 102-162 *)
Definition genSurfS : res kernels :=
  ks <- xAdd 0 (Build_gdesc nMdFa nE nMd nMdFa nMd nMdFa false) [];;
  ks <- xAdd 0 (Build_gdesc nMdFa nE nE nMdFa nE nMdFa false) ks;;
  ks <- xAdd 0 (Build_gdesc nMd nE nMdFa nMd nMdFa nMd true) ks;;
  ks <- xAdd 1 (Build_gdesc nMdFa nM nE nMdFa nE nMdFa false) ks;;
  xAdd 1 (Build_gdesc nMd nM nMdFa nMd nMdFa nMd true) ks.

(** src/impl/seismic/kernels/SurfIntSingle.hpp 219-249, 282-288, 332-354: calls of the kernels *)
Definition sLN (ks : kernels) (fIntLN : list (list T)) (id : nat) (t o : list T) : res (list T) :=
  k <- xKern ks 0 0;; m <- rd fIntLN id;; xGemm L k m t o.
Definition sFs (ks : kernels) (g i : nat) (f fi s : list T) : res (list T) := k <- xKern ks g i;; xGemm L k fi f s.
Definition sT (ks : kernels) (g i : nat) (fIntT : list (list T)) (fa : nat) (s d : list T) : res (list T) :=
  k <- xKern ks g i;; m <- rd fIntT fa;; xGemm L k m s d.

(** src/impl/seismic/kernels/SurfIntSingle.hpp 198-255, 267-289, 306-356 *)
Definition surfLocalSingle (ks : kernels) (fIntLN fIntT : list (list T)) :=
  surfLocalG zero add mul cf (sLN ks fIntLN) (sFs ks 0 1) (sFs ks 1 0) (sT ks 0 2 fIntT) (sT ks 1 1 fIntT).
Definition neighFluxIntSingle (ks : kernels) (fIntLN : list (list T)) := neighFluxIntG cf (sLN ks fIntLN).
Definition surfNeighSingle (ks : kernels) (fIntLN fIntT : list (list T)) :=
  surfNeighG cf (sLN ks fIntLN) (sFs ks 0 1) (sFs ks 1 0) (sT ks 0 2 fIntT) (sT ks 1 1 fIntT).
End Single.
