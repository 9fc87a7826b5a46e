(** Memory of the sub-cell limiter and its initialization: src/sc/Memory.hpp, src/sc/Init.hpp.

    Allocated memory is a list of entries with arbitrary values; multi-dimensional arrays are addressed as in C++, row by row. Sizes are natural numbers (no overflow); alignment is not modelled. The loops of the parallel regions are run in order, other orders of the writes are covered in Props_ScDataP. *)
From Verif Require Import Util.
From Coq Require Import List Arith.

Section ScData.
  Variable (V : Type) (zero : V).
  (** TL_N_QTS, TL_N_SCS, TL_N_SFS, TL_N_FAS, TL_N_CRS *)
  Variable (nQt nSc nSf nFa nCr : nat).

  (** Memory.hpp 85-86, 90-91, 102-103, 110-111, 115-116, 120-121: sizes in bytes; [sz]: size of an entry in bytes *)
  Definition dofsSize (sz nLim : nat) : nat := nQt * nSc * nCr * (nLim * sz).
  (** Memory.hpp 90-91 *)
  Definition tDofsSize (sz nLimP : nat) : nat := nFa * nQt * nSf * nCr * (nLimP * sz).
  (** Memory.hpp 102-103 (adm), 110-111 (lock), 115-116 (limSync) *)
  Definition runsSize (sz nLim : nat) : nat := nCr * (nLim * sz).
  (** Memory.hpp 120-121 *)
  Definition extSize (sz nExt : nat) : nat := 2 * nQt * nCr * (nExt * sz).

  (** Memory.hpp 84-123: the arrays behind the pointers *)
  Record mem := Mem { dofs : list V; tDofsRaw : list (list V); ext : list (list V); adm : list (list bool); lock : list bool; limSync : list nat }.

  (** Init.hpp 427-430 *)
  Definition resetDofs (li : nat) (m : list V) : res (list V) :=
    for_ 0 nQt (fun qt => for_ 0 nSc (fun sc => for_ 0 nCr (fun cr m => wr m (((li * nQt + qt) * nSc + sc) * nCr + cr) zero))) m.
  (** Init.hpp 433-434, 436-437, 439-440: entries of one limited element for all runs *)
  Definition resetRuns {B} (v : B) (li : nat) (m : list B) : res (list B) := for_ 0 nCr (fun cr m => wr m (li * nCr + cr) v) m.
  (** Init.hpp 432-434 *)
  Definition resetAdm (li : nat) (a : list (list bool)) : res (list (list bool)) :=
    for_ 0 4 (fun ad a => m <- rd a ad ;; m <- resetRuns true li m ;; wr a ad m) a.
  (** Init.hpp 425-441 *)
  Definition resetLim (nLim : nat) (s : mem) : res mem :=
    for_ 0 nLim (fun li s =>
      d <- resetDofs li (dofs s) ;; a <- resetAdm li (adm s) ;; l <- resetRuns false li (lock s) ;; y <- resetRuns 0 li (limSync s) ;;
      Ok (Mem d (tDofsRaw s) (ext s) a l y)) s.
  (** Init.hpp 449-454 *)
  Definition resetBuf (nLimP : nat) (m : list V) : res (list V) :=
    for_ 0 nLimP (fun lp => for_ 0 nFa (fun fa => for_ 0 nQt (fun qt => for_ 0 nSf (fun sf => for_ 0 nCr (fun cr m =>
      wr m ((((lp * nFa + fa) * nQt + qt) * nSf + sf) * nCr + cr) zero))))) m.
  (** Init.hpp 461-465 *)
  Definition resetExt (nExt : nat) (m : list V) : res (list V) :=
    for_ 0 nExt (fun ex => for_ 0 2 (fun e2 => for_ 0 nQt (fun qt => for_ 0 nCr (fun cr m =>
      wr m (((ex * 2 + e2) * nQt + qt) * nCr + cr) zero)))) m.
  (** Init.hpp 444, 457: both of the two buffers *)
  Definition both (f : list V -> res (list V)) (b : list (list V)) : res (list (list V)) :=
    for_ 0 2 (fun i b => m <- rd b i ;; m <- f m ;; wr b i m) b.
  (** Init.hpp 412-466 (data) *)
  Definition data (nLim nLimP nExt : nat) (s : mem) : res mem :=
    s <- resetLim nLim s ;; t <- both (resetBuf nLimP) (tDofsRaw s) ;; e <- both (resetExt nExt) (ext s) ;;
    Ok (Mem (dofs s) t e (adm s) (lock s) (limSync s)).
End ScData.
