(** The sub-grid of the solver: src/sc/SubGrid.hpp.

    Coordinates are rational numbers, not floating point numbers. Ids of sub-vertices in [faSg] are integers, the largest unsigned short (65535) is the invalid id; the ids of sub-cells in [faSg] are unsigned shorts in the code and natural numbers here (no overflow).
    Arrays are given with their template sizes. *)
From Coq Require Import List Arith Bool ZArith QArith.
From Verif Require Import Util ScQuad.
Import ListNotations.
Open Scope nat_scope.

Definition rd2 {A} (l : list (list A)) (i j : nat) : res A := r <- rd l i ;; rd r j.

(** SubGrid.hpp 100-107: combined distance of sub-cell [sc] *)
Definition distSc (nDis nVes : nat) (pt : list Q) (scSv : list (list nat)) (sv : list (list Q)) (sc : nat) : res Q :=
  for_ 0 nVes (fun ve dx =>
    v <- rd2 scSv sc ve ;;
    for_ 0 nDis (fun di dx => c <- rd2 sv v di ;; p <- rd pt di ;; let diff := (c - p)%Q in Ok (dx + diff * diff)%Q) dx) 0%Q.
(** SubGrid.hpp 88-117; [lidMax], [realMax]: the largest values of the types *)
Definition ptSc (lidMax : nat) (realMax : Q) (nDis nVes nScs : nat) (pt : list Q) (scSv : list (list nat)) (sv : list (list Q)) : res nat :=
  st <- for_ 0 nScs (fun sc st => dx <- distSc nDis nVes pt scSv sv sc ;; Ok (if negb (Qle_bool (snd st) dx) then (sc, dx) else st)) (lidMax, realMax) ;; Ok (fst st).

(** the largest unsigned short *)
Definition inv : Z := 65535%Z.
(** SubGrid.hpp 141-154: the loop over the ids of the face's sub-grid; the id which is stored, None: nothing is stored *)
Definition assign (nFaSvs : nat) (id : Z) (r : list Z) : res (list Z * option nat) :=
  forb 0 nFaSvs (fun cu st =>
    x <- rd (fst st) cu ;;
    if (x =? id)%Z then Ok ((fst st, Some cu), true)
    else if (x =? inv)%Z then r' <- wr (fst st) cu id ;; Ok ((r', Some cu), true)
    else Ok (st, false)) (r, None).
(** SubGrid.hpp 136-162: sub-face [sf] of face [fa]; [row]: o_faSfSvL[fa][sf] *)
Definition subFace (hex : bool) (nSfs nFaVes nFaSvs nScs : nat) (scSv : list (list Z)) (fa sf : nat) (r : list Z) (row : list nat) : res (list Z * list nat) :=
  st <- for_ 0 nFaVes (fun sv st =>
    id <- rd2 scSv (nScs + fa * nSfs + sf) sv ;;
    a <- assign nFaSvs id (fst st) ;;
    match snd a with Some cu => row <- wr (snd st) sv cu ;; Ok (fst a, row) | None => Ok (fst a, snd st) end) (r, row) ;;
  if hex then
    t <- rd (snd st) 0 ;; b <- rd (snd st) 1 ;; row <- wr (snd st) 0 b ;; row <- wr row 1 t ;; Ok (fst st, row)
  else Ok st.
(** SubGrid.hpp 130-163: a face; [rows]: o_faSfSvL[fa] *)
Definition face (hex : bool) (nSfs nFaVes nFaSvs nScs : nat) (scSv : list (list Z)) (fa : nat) (rows : list (list nat)) : res (list Z * list (list nat)) :=
  for_ 0 nSfs (fun sf st => row <- rd (snd st) sf ;; x <- subFace hex nSfs nFaVes nFaSvs nScs scSv fa sf (fst st) row ;; rows <- wr (snd st) sf (snd x) ;; Ok (fst x, rows)) (repeat inv nFaSvs, rows).
(** SubGrid.hpp 126-165; [o_l], [o_r]: the arrays before the call *)
Definition faSg (hex : bool) (nFas nSfs nFaVes nFaSvs nScs : nat) (scSv : list (list Z)) (o_l : list (list (list nat))) (o_r : list (list Z)) : res (list (list (list nat)) * list (list Z)) :=
  for_ 0 nFas (fun fa st => rows <- rd (fst st) fa ;; x <- face hex nSfs nFaVes nFaSvs nScs scSv fa rows ;; l <- wr (fst st) fa (snd x) ;; r <- wr (snd st) fa (fst x) ;; Ok (l, r)) (o_l, o_r).

(** src/sc/cexprs.inc 30-78 for quads and their faces (lines), [os]: the order *)
Definition nSvsLine (os : nat) : nat := 2 * os.
Definition nSfsQuad (os : nat) : nat := 2 * (os - 1) + 1.
Definition nScsQuad (os : nat) : nat := (2 * (os - 1) + 1) * (2 * (os - 1) + 1).
(** the generated tables as arrays of unsigned shorts: -1 is the largest *)
Definition toShort (v : option nat) : Z := match v with Some v => (Z.of_nat v mod 65536)%Z | None => (-1 mod 65536)%Z end.
