(** Super-cells at internal boundaries: src/sc/ibnd/SuperCell.hpp.

    DOFs are rational numbers, not floating point numbers. Ids of sub-cells are unsigned shorts in the code and natural numbers here (no overflow). The assembly of stencils is modelled as it is called, for single elements: SuperCell.hpp 287-305 pass one
    limited plus element with invalid neighbours, so that no adjacent element is found (177-183), the loop over the levels ends after the first one, and the reordering by elements (227-254) keeps the order. *)
From Coq Require Import List Arith Bool QArith.
From Verif Require Import Util Comm SubGrid.
Import ListNotations.
Open Scope nat_scope.

(** SuperCell.hpp 138-143: is sub-cell [ad] at face [fa]? *)
Definition atBnd (nFas nSfs nScs : nat) (scSfSc : list (list nat)) (fa ad : nat) : res bool :=
  for_ 0 nFas (fun s2 bnd => x <- rd2 scSfSc ad s2 ;; Ok (if (nScs + fa * nSfs <=? x) && (x <? nScs + (fa + 1) * nSfs) then true else bnd)) false.
(** SuperCell.hpp 114-163 (one level, one element): the sub-cells of the stencil of [src] *)
Definition stLocal (nFas nSfs nScs : nat) (scSfSc : list (list nat)) (fa src : nat) : res (list nat) :=
  for_ 0 nFas (fun s1 scs =>
    ad <- rd2 scSfSc src s1 ;;
    if nScs <=? ad then Ok scs else
    bnd <- atBnd nFas nSfs nScs scSfSc fa ad ;;
    Ok (if bnd && negb (src =? ad) then scs ++ [ad] else scs)) [src].
(** SuperCell.hpp 274-316: face [fa], state: the number of stencils and the array *)
Definition faSt1 (nFas nSfs nScs nSt : nat) (scSfSc : list (list nat)) (fa : nat) (col : list (nat * nat)) : res (nat * list (nat * nat)) :=
  for_ 0 nSfs (fun sf st =>
    sc <- rd2 scSfSc (nScs + fa * nSfs + sf) 0 ;;
    scs <- stLocal nFas nSfs nScs scSfSc fa sc ;;
    match scs with
    | a :: b :: _ => if a <? b then _ <- check (fst st <? nSt) ;; col <- wr (snd st) (fst st) (a, b) ;; Ok (S (fst st), col) else Ok st
    | _ => Ok st
    end) (0, col).
(** SuperCell.hpp 265-318 *)
Definition faSt (tet : bool) (nFas nSfs nScs nSt : nat) (scSfSc : list (list nat)) (cols : list (list (nat * nat))) : res (list (list (nat * nat))) :=
  if tet then for_ 0 nFas (fun fa cols => col <- rd cols fa ;; x <- faSt1 nFas nSfs nScs nSt scSfSc fa col ;; wr cols fa (snd x)) cols else Ok cols.

(** SuperCell.hpp 356-368: stencil [(a, b)], a quantity; [d]: sub-cells, fused simulations *)
Definition average (nCrs a b : nat) (d : list (list Q)) : res (list (list Q)) :=
  ave <- mapM (fun cr => x <- rd2 d a cr ;; y <- rd2 d b cr ;; Ok ((1 # 2) * x + (1 # 2) * y)%Q) (seq 0 nCrs) ;;
  for_ 0 nCrs (fun cr d => v <- rd ave cr ;; r <- rd d a ;; r <- wr r cr v ;; d <- wr d a r ;; r <- rd d b ;; r <- wr r cr v ;; wr d b r) d.
(** SuperCell.hpp 348-372 *)
Definition applyFa (tet : bool) (nSt nQts nCrs : nat) (col : list (nat * nat)) (dofs : list (list (list Q))) : res (list (list (list Q))) :=
  if tet then for_ 0 nSt (fun st dofs => for_ 0 nQts (fun qt dofs => p <- rd col st ;; d <- rd dofs qt ;; d <- average nCrs (fst p) (snd p) d ;; wr dofs qt d) dofs) dofs else Ok dofs.
