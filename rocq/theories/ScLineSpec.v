(** Sub-grids of lines: the notions the theorems are stated with. *)
From Coq Require Import List Arith Bool ZArith QArith Qreals Reals.
From Verif Require Import ElSpec ScProjSpec ScQuadSpec ScLine.
Import ListNotations.
Open Scope nat_scope.

(** Sub-cell [c] of a line is at position [lineCell n c], counted from the left ([ScProjSpec]). Sub-cell on the left (face 0) and on the right (face 1), [id] is its number: a sub-cell, or behind the element's faces the ghosts n and n+1 *)
Definition onLeft (n c : nat) (id : Z) : Prop :=
  match lineCell n c with O => id = Z.of_nat n | S p => exists c', (c' < n) /\ id = Z.of_nat c' /\ lineCell n c' = p end.
Definition onRight (n c : nat) (id : Z) : Prop :=
  if S (lineCell n c) =? n then id = (Z.of_nat n + 1)%Z else exists c', (c' < n) /\ id = Z.of_nat c' /\ lineCell n c' = S (lineCell n c).
(** position of the vertex, and of the sub-cell, at a face of the element *)
Definition endVertex (n fa : nat) : nat := match fa with O => 0 | _ => n end.
Definition endCell (n fa : nat) : nat := match fa with O => 0 | _ => n - 1 end.
(** maps and determinants of the generated tables, by sub-cell *)
Definition mapAt (m : list (list Q)) (c : nat) (x : R) : R := peval (map Q2R (nth c m [])) x.
Definition detAt (d : list Q) (c : nat) : R := Q2R (nth c d 0%Q).
