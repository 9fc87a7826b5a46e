(** Kernels of the ADER-DG solver for seismic wave propagation: LIBXSMM version for fused forward simulations
    (src/impl/seismic/kernels/TimePredFused.hpp, VolIntFused.hpp, SurfIntFused.hpp).

    The stiffness and flux matrices are sparse with compressed columns, the star matrices, source matrices and flux solvers have compressed
    rows.  The common loops are in AderGen.v, the conversions in MatSparse.v.
    [big], [small], [isMax], [maxv]: as in MatSparse.v, for the tolerance TOL.BASIS.  [qfma]: the target is KNM.  [hier]: PP_T_BASIS_HIERARCHICAL.
    [P]: sparsity patterns of FakeMats.  Simplifications: 32-bit and 16-bit counters of non-zeros do not overflow; ORDER, N_DIM are those of the
    template parameters; pointers to matrices are the values from there on; prefetching has no effect. *)
From Verif Require Import Util MeshConn MatMul MatSparse Ader MmXsmm AderGen FakeMats.

Section Fused.
Context {T : Type}.
Variables (zero one : T) (add sub mul div : T -> T -> T) (opp : T -> T) (ofN : nat -> T).
Variables (big small isMax : T -> bool) (maxv : T) (qfma hier : bool).
Variable L : xsmm T.
Variable cf : conf.
Variable P : pats.

Local Notation nDi := (nDis (cEl cf)).
Local Notation nMd := (nModes (cEl cf) (cSp cf)).
Local Notation nMdFa := (nModesFa (cEl cf) (cSp cf)).
Local Notation nFa := (nElFas (cEl cf)).
Local Notation nE := (nQtsE (cEl cf)).
Local Notation nM := (nQtsM (cEl cf)).
Local Notation nRm := (cRms cf).
Local Notation kernels := (list (list packed)).
Local Notation toCsc := (denseToCsc big small isMax zero maxv).
Local Notation comp0 := {| cVal := []; cPtr := []; cIdx := [] |}.

Definition csrK (p : list nat * list nat) (d : gdesc) : packed := Build_packed true d (fst p) (snd p) (cCrs cf).
Definition cscK (s : comp T) (d : gdesc) : packed := Build_packed false d (cPtr s) (cIdx s) (cCrs cf).

(** all non-zero blocks start with the first row and column *)
Definition upTo (r c : nat) : block := ((Some 0, Some r), (Some 0, Some c)).
Definition toCrds (m : list (list T)) : res (list (list (entry T))) :=
  for_ 0 nDi (fun di o => a <- rd m di;; c <- denseToCrd big nMd nMd a;; Ok (o ++ [c])) [].
(** values and offsets of further matrices *)
Definition addData (cs : list (comp T)) (s : list nat * list T) : res (list nat * list T) :=
  for_ 0 (length cs) (fun i s => c <- rd cs i;; Ok (fst s ++ [last (fst s) 0 + length (cVal c)], snd s ++ cVal c)) s.

(** *** Time prediction *)
(** src/impl/seismic/kernels/TimePredFused.hpp 161-166: last non-zero column over all directions.  A block without entries has the bounds
    numeric_limits::max(), which are not used as column: [Er Eub]. *)
Definition maxCol (crds : list (list (entry T))) (b : block) : res nat :=
  for_ 0 nDi (fun di m => c <- rd crds di;; match snd (snd (getBlockNz c b)) with Some x => Ok (Nat.max m x) | None => Er Eub end) 0.
(** src/impl/seismic/kernels/TimePredFused.hpp 159-204: last non-zero columns, offsets, values, matrices, last row *)
Definition cscStep (stiffT : list (list T)) (crds : list (list (entry T))) (de : nat) (s : list nat * (list nat * list T) * list (comp T) * nat)
    : res (list nat * (list nat * list T) * list (comp T) * nat) :=
  let '(mx, dat, mats, prev) := s in
  m <- maxCol crds (upTo prev (nMd - 1));;
  cs <- for_ 0 nDi (fun di cs => a <- rd stiffT di;; c <- toCsc nMd nMd a (Some (prev + 1)) (Some (m + 1)) qfma comp0;; Ok (cs ++ [c])) [];;
  dat <- (if (de =? 1) || (m <? prev) then addData cs dat else Ok (fst dat ++ repeat (last (fst dat) 0) nDi, snd dat));;
  _ <- check (negb hier || (m + 1 =? nModes (cEl cf) (cSp cf - de)));;
  Ok (mx ++ [m], dat, mats ++ cs, m).
(** src/impl/seismic/kernels/TimePredFused.hpp 124-205 *)
Definition getCscStiffT (stiffT : list (list T)) : res (list nat * (list nat * list T) * list (comp T)) :=
  crds <- toCrds stiffT;;
  '(mx, dat, mats, _) <- for_ 1 (cTi cf) (cscStep stiffT crds) ([], ([0], []), [], nMd - 1);;
  Ok (mx, dat, mats).

(** src/impl/seismic/kernels/TimePredFused.hpp 212-312; the checks of the numbers of non-zeros are part of [fakePats] *)
Definition genTimeF (stiffT : list (list T)) : res kernels :=
  '(mx, _, mats) <- getCscStiffT stiffT;;
  ks <- for_ 1 (cTi cf) (fun de ks =>
    n <- rd mx (de - 1);;
    k <- (if de =? 1 then Ok nMd else k <- rd mx (de - 2);; Ok (k + 1));;
    ks <- for_ 0 nDi (fun di ks => s <- rd mats ((de - 1) * nDi + di);; xAdd 0 (cscK s (Build_gdesc nE (n + 1) k nMd 0 (n + 1) false)) ks) ks;;
    xAdd 1 (csrK (pE P) (Build_gdesc nE (n + 1) nE 0 (n + 1) nMd true)) ks) [];;
  if 0 <? nRm then
    n <- rd mx 0;;
    ks <- xAdd 2 (csrK (pA P) (Build_gdesc nM (n + 1) nE 0 (n + 1) nMd true)) ks;;
    xAdd 2 (csrK (pS P) (Build_gdesc nM nMd nM 0 nMd nMd true)) ks
  else Ok ks.

(** src/impl/seismic/kernels/TimePredFused.hpp 322-355: recursion, direction *)
Definition storeStiffTF (stiffT : list (list T)) : res (list (list (list T))) :=
  '(_, (off, nz), _) <- getCscStiffT stiffT;;
  let raw := map opp nz in
  _ <- check (length off =? (cTi cf - 1) * nDi + 1);;
  for_ 1 (cTi cf) (fun de o => r <- for_ 0 nDi (fun di r => x <- rd off ((de - 1) * nDi + di);; Ok (r ++ [skipn x raw])) [];; Ok (o ++ [r])) [].

(** src/impl/seismic/kernels/TimePredFused.hpp 462-489: calls of the kernels; the scratch memory is set to zero for elements other than
    triangles and tetrahedra *)
Definition fStiffT (ks : kernels) (stiffT : list (list (list T))) (re di : nat) (p scr : list T) : res (list T) :=
  scr <- (match cEl cf with TET4 | TRIA3 => Ok scr | _ => zeroE zero cf nE scr end);;
  k <- xKern ks 0 ((re - 1) * nDi + di);; m <- rd2 stiffT (re - 1) di;; xRun L k p m scr.
Definition fStarE (ks : kernels) (i : nat) (starE : list (list T)) (di : nat) (scr e : list T) : res (list T) :=
  k <- xKern ks 1 i;; a <- rd starE di;; xRun L k a scr e.
Definition fStarA (ks : kernels) (starA : list (list T)) (di : nat) (scr sA : list T) : res (list T) :=
  k <- xKern ks 2 0;; a <- rd starA di;; xRun L k a scr sA.
Definition fSrc (ks : kernels) (srcA : list (list T)) (rm : nat) (p e : list T) : res (list T) :=
  k <- xKern ks 2 1;; w <- rd srcA rm;; xRun L k w p e.

(** src/impl/seismic/kernels/TimePredFused.hpp 407-525 *)
Definition ckFused (ks : kernels) (stiffT : list (list (list T))) (rfs : list T) (dT : T) (starE starA srcA : list (list T)) :=
  ckG zero add mul div ofN cf (fStiffT ks stiffT) (fun re di => fStarE ks (re - 1) starE di) (fStarA ks starA) (fSrc ks srcA) true rfs dT.

(** *** Volume integration *)
(** src/impl/seismic/kernels/VolIntFused.hpp 104-171 *)
Definition getCscStiff (stiff : list (list T)) : res (nat * (list nat * list T) * list (comp T)) :=
  crds <- toCrds stiff;;
  m <- for_ 0 nDi (fun di m => c <- rd crds di;; match snd (fst (getBlockNz c (upTo (nMd - 1) (nMd - 1)))) with Some x => Ok (Nat.max m x) | None => Er Eub end) 0;;
  _ <- check (negb hier || (m + 1 =? nModes (cEl cf) (cSp cf - 1)));;
  cs <- for_ 0 nDi (fun di cs => a <- rd stiff di;; c <- toCsc nMd nMd a None None qfma comp0;; Ok (cs ++ [c])) [];;
  dat <- addData cs ([0], []);;
  Ok (m, dat, cs).

(** src/impl/seismic/kernels/VolIntFused.hpp 178-276 *)
Definition genVolF (stiff : list (list T)) : res kernels :=
  '(m, _, cs) <- getCscStiff stiff;;
  let n := if nRm =? 0 then m + 1 else nMd in
  ks <- for_ 0 nDi (fun di ks => s <- rd cs di;; xAdd 0 (cscK s (Build_gdesc nE nMd (m + 1) n 0 nMd (nRm =? 0))) ks) [];;
  ks <- xAdd 1 (csrK (pE P) (Build_gdesc nE n nE 0 nMd n (negb (nRm =? 0)))) ks;;
  if 0 <? nRm then
    ks <- xAdd 2 (csrK (pA P) (Build_gdesc nM nMd nE 0 nMd nMd true)) ks;;
    xAdd 2 (csrK (pS P) (Build_gdesc nM nMd nM 0 nMd nMd true)) ks
  else Ok ks.

(** src/impl/seismic/kernels/VolIntFused.hpp 285-314 *)
Definition storeStiffF (stiff : list (list T)) : res (list (list T)) :=
  '(_, (off, nz), _) <- getCscStiff stiff;;
  _ <- check (length off =? nDi + 1);;
  for_ 0 nDi (fun di o => x <- rd off di;; Ok (o ++ [skipn x nz])) [].

(** src/impl/seismic/kernels/VolIntFused.hpp 360-437 *)
Definition volFused (ks : kernels) (stiff : list (list T)) (rfs : list T) (starE starA srcA : list (list T))
    (tE : list T) (tA : list (list T)) (junk dofsE : list T) (dofsA : list (list T)) (scr : list T) : res (list T * list (list T) * list T) :=
  sA <- (if 0 <? nRm then zeroE zero cf nM junk else Ok junk);;
  scr <- (if 0 <? nRm then zeroE zero cf nE scr else Ok scr);;
  '(scr, dofsE, sA) <- for_ 0 nDi (fun di s => let '(scr, dofsE, sA) := s in
    if nRm =? 0 then
      scr <- fStarE ks 0 starE di tE scr;;
      k <- xKern ks 0 di;; m <- rd stiff di;; dofsE <- xRun L k scr m dofsE;;
      Ok (scr, dofsE, sA)
    else
      k <- xKern ks 0 di;; m <- rd stiff di;; scr <- xRun L k tE m scr;;
      dofsE <- fStarE ks 0 starE di scr dofsE;;
      sA <- fStarA ks starA di scr sA;;
      Ok (scr, dofsE, sA)) (scr, dofsE, sA);;
  '(dofsE, dofsA) <- volRm add sub mul cf (fSrc ks srcA) rfs tA sA dofsE dofsA;;
  Ok (dofsE, dofsA, scr).

(** *** Surface integration *)
(** src/impl/seismic/kernels/SurfIntFused.hpp 121-199; the local and neighboring flux matrices are one list *)
Definition getCscFlux (fIntLN fIntT : list (list T)) : res ((list nat * list T) * list (comp T)) :=
  cs <- for_ 0 (nFa + nFluxN (cEl cf)) (fun i cs => a <- rd fIntLN i;; c <- toCsc nMd nMdFa a None None qfma comp0;; Ok (cs ++ [c])) [];;
  cs <- for_ 0 nFa (fun i cs => a <- rd fIntT i;; c <- toCsc nMdFa nMd a None None qfma comp0;; Ok (cs ++ [c])) cs;;
  dat <- addData cs ([0], []);;
  Ok (dat, cs).

(** src/impl/seismic/kernels/SurfIntFused.hpp 208-347 *)
Definition genSurfF (fIntLN fIntT : list (list T)) : res kernels :=
  '(_, cs) <- getCscFlux fIntLN fIntT;;
  let nLN := nFa + nFluxN (cEl cf) in
  ks <- for_ 0 nLN (fun i ks => s <- rd cs i;; xAdd 0 (cscK s (Build_gdesc nE nMdFa nMd nMd 0 nMdFa false)) ks) [];;
  ks <- for_ 0 nFa (fun i ks => s <- rd cs (nLN + i);; xAdd 2 (cscK s (Build_gdesc nE nMd nMdFa nMdFa 0 nMd true)) ks) ks;;
  ks <- for_ 0 nFa (fun i ks => s <- rd cs (nLN + i);; xAdd 4 (cscK s (Build_gdesc nM nMd nMdFa nMdFa 0 nMd true)) ks) ks;;
  ks <- xAdd 1 (csrK (pFE P) (Build_gdesc nE nMdFa nE 0 nMdFa nMdFa false)) ks;;
  if 0 <? nRm then xAdd 3 (csrK (pFA P) (Build_gdesc nM nMdFa nM 0 nMdFa nMdFa false)) ks else Ok ks.

(** src/impl/seismic/kernels/SurfIntFused.hpp 359-394 *)
Definition storeFluxF (fIntLN fIntT : list (list T)) : res (list (list T) * list (list T)) :=
  '((off, nz), _) <- getCscFlux fIntLN fIntT;;
  let nLN := nFa + nFluxN (cEl cf) in
  _ <- check (length off =? nLN + nFa + 1);;
  ln <- for_ 0 nLN (fun i o => x <- rd off i;; Ok (o ++ [skipn x nz])) [];;
  t <- for_ 0 nFa (fun i o => x <- rd off (nLN + i);; Ok (o ++ [skipn x nz])) [];;
  Ok (ln, t).

(** src/impl/seismic/kernels/SurfIntFused.hpp 396-417, 507-533, 567-569, 613-634: calls of the kernels *)
Definition fLN (ks : kernels) (fIntLN : list (list T)) (id : nat) (t o : list T) : res (list T) :=
  k <- xKern ks 0 id;; m <- rd fIntLN id;; xRun L k t m o.
Definition fFs (ks : kernels) (g : nat) (f fi s : list T) : res (list T) := k <- xKern ks g 0;; xRun L k f fi s.
Definition fT (ks : kernels) (g : nat) (fIntT : list (list T)) (fa : nat) (s d : list T) : res (list T) :=
  k <- xKern ks g fa;; m <- rd fIntT fa;; xRun L k s m d.

(** src/impl/seismic/kernels/SurfIntFused.hpp 483-539, 551-570, 586-636 *)
Definition surfLocalFused (ks : kernels) (fIntLN fIntT : list (list T)) :=
  surfLocalG zero add mul cf (fLN ks fIntLN) (fFs ks 1) (fFs ks 3) (fT ks 2 fIntT) (fT ks 4 fIntT).
Definition neighFluxIntFused (ks : kernels) (fIntLN : list (list T)) := neighFluxIntG cf (fLN ks fIntLN).
Definition surfNeighFused (ks : kernels) (fIntLN fIntT : list (list T)) :=
  surfNeighG cf (fLN ks fIntLN) (fFs ks 1) (fFs ks 3) (fT ks 2 fIntT) (fT ks 4 fIntT).
End Fused.
