(** Specification of the extrusion (C85): grids, closed surfaces, orientation. *)
From Coq Require Import QArith Qcanon Sorting.Permutation.
From Verif Require Import Util Extrude.
Open Scope nat_scope.

(** The points of a rectilinear grid: columns of constant x. *)
Definition gridPts (nx ny : nat) (xs ys : nat -> Qc) (zs : nat -> nat -> Qc) : list point :=
  flat_map (fun i => map (fun j => (xs i, ys j, zs i j)) (seq 0 ny)) (seq 0 nx).
(** The input holds the points of such a grid in any order.  Columns are further apart than the tolerance. *)
Definition isGrid (pts : list point) (eps : Qc) (nx ny : nat) (xs ys : nat -> Qc) (zs : nat -> nat -> Qc) : Prop :=
  (0 <= eps)%Qc /\ 2 <= nx /\ 2 <= ny /\ (forall i, S i < nx -> (eps < xs (S i) - xs i)%Qc) /\ (forall j, S j < ny -> (ys j < ys (S j))%Qc) /\
  Permutation pts (gridPts nx ny xs ys zs).
(** The grid has room for the given number of coarsenings: whole coarse cells, and all rings next to each other. *)
Definition fits (n levels : nat) : Prop := exists m, n = m * 2 ^ levels + 1 /\ 4 * (2 ^ levels - 1) <= m * 2 ^ levels.

(** Points of a triangle of a file *)
Definition dflt : point := (0%Qc, 0%Qc, 0%Qc).
Definition corner (f : off) (i : nat) : point := nth i (oPts f) dflt.
(** A file is well-formed: announced numbers, references to existing points *)
Definition wellFormed (f : off) : Prop :=
  oNv f = length (oPts f) /\ oNt f = length (oTri f) /\
  forall a b c, In (a, b, c) (oTri f) -> a < length (oPts f) /\ b < length (oPts f) /\ c < length (oPts f).
(** Directed edges of all triangles of a file *)
Definition edges (f : off) : list (point * point) :=
  flat_map (fun t => let '(a, b, c) := t in [(corner f a, corner f b); (corner f b, corner f c); (corner f c, corner f a)]) (oTri f).

(** Normal of a triangle: cross product of two edges *)
Definition normal (a b c : point) : point :=
  (((py b - py a) * (pz c - pz a) - (pz b - pz a) * (py c - py a))%Qc,
   ((pz b - pz a) * (px c - px a) - (px b - px a) * (pz c - pz a))%Qc,
   ((px b - px a) * (py c - py a) - (py b - py a) * (px c - px a))%Qc).

(** Seen from above: position of (x,y) relative to the edge from [a] to [b], positive to the left *)
Definition leftOf (x y : Qc) (a b : point) : Qc := ((px b - px a) * (y - py a) - (x - px a) * (py b - py a))%Qc.
Definition inside (x y : Qc) (f : off) (t : tria) : Prop := let '(a, b, c) := t in
  (0 < leftOf x y (corner f a) (corner f b))%Qc /\ (0 < leftOf x y (corner f b) (corner f c))%Qc /\ (0 < leftOf x y (corner f c) (corner f a))%Qc.
(** no edge of the file, prolonged, meets (x,y) *)
Definition generic (x y : Qc) (f : off) : Prop := forall p q, In (p, q) (edges f) -> leftOf x y p q <> 0%Qc.

(** Inputs of the theorems: a grid with room for the levels, of which at least one point is above the bottom; levels below the limit of the stored ratio *)
Definition suitable (pts : list point) (zT : Qc) (levels : nat) (eps : Qc) (nx ny : nat) (xs ys : nat -> Qc) (zs : nat -> nat -> Qc) : Prop :=
  isGrid pts eps nx ny xs ys zs /\ fits nx levels /\ fits ny levels /\ levels < 16 /\ exists i j, i < nx /\ j < ny /\ (zT < zs i j)%Qc.

(** all triangles of a file satisfy a predicate of their corners *)
Definition allTria (f : off) (Q : point -> point -> point -> Prop) : Prop := forall a b c, In (a, b, c) (oTri f) -> Q (corner f a) (corner f b) (corner f c).
