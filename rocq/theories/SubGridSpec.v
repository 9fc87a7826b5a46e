(** The sub-grid of the solver: the notions the theorems are stated with. *)
From Coq Require Import List Arith Bool ZArith QArith.
From Verif Require Import ScQuadSpec ScLine SubGrid.
Import ListNotations.
Open Scope nat_scope.

(** squared distance of two points, and the sum of those to the vertices of a cell *)
Definition sq (a b : list Q) : Q := fold_right (fun ab s => ((fst ab - snd ab) * (fst ab - snd ab) + s)%Q) 0%Q (combine a b).
Definition sumSq (sv : list (list Q)) (pt : list Q) (row : list nat) : Q := fold_right (fun v s => (sq (nth v sv []) pt + s)%Q) 0%Q row.
(** arrays of the given sizes, all ids are ids of sub-vertices *)
Definition table (nDis nVes nScs : nat) (pt : list Q) (scSv : list (list nat)) (sv : list (list Q)) : Prop :=
  length pt = nDis /\ (forall p, In p sv -> length p = nDis) /\ nScs <= length scSv /\ forall row, In row scSv -> length row = nVes /\ forall v, In v row -> v < length sv.
(** [p] is in the closed sub-cell [c] of a quad *)
Definition inClosed (deg c : nat) (p : Q * Q) : Prop :=
  exists a b, vertexOf deg c 0 a /\ vertexOf deg c 2 b /\ (fst a <= fst p)%Q /\ (fst p <= fst b)%Q /\ (snd a <= snd p)%Q /\ (snd p <= snd b)%Q.
(** [p] is inside the sub-cell *)
Definition inside (deg c : nat) (p : Q * Q) : Prop :=
  exists a b, vertexOf deg c 0 a /\ vertexOf deg c 2 b /\ (fst a < fst p)%Q /\ (fst p < fst b)%Q /\ (snd a < snd p)%Q /\ (snd p < snd b)%Q.

(** elements of a list without repetitions, in the order of their first appearance *)
Definition firsts (l : list Z) : list Z := rev (nodup Z.eq_dec (rev l)).
Definition at2 (t : list (list Z)) (i j : nat) : Z := nth j (nth i t []) inv.
(** vertices of a face's ghost sub-cells, ghost by ghost *)
Definition faceIds (nSfs nFaVes nScs : nat) (scSv : list (list Z)) (fa : nat) : list Z :=
  flat_map (fun sf => map (at2 scSv (nScs + fa * nSfs + sf)) (seq 0 nFaVes)) (seq 0 nSfs).
(** hexes: the first two vertices of a sub-face are exchanged *)
Definition exch (hex : bool) (j : nat) : nat := if hex then match j with 0 => 1 | 1 => 0 | _ => j end else j.
(** generated tables of quads, as the solver gets them *)
Definition quadIds (deg : nat) : list (list nat) := map (map (fun v => match v with Some v => v | None => 0 end)) (firstn ((2 * deg + 1) * (2 * deg + 1)) (rows3 (ScQuad.scSv deg))).
Definition quadShorts (deg : nat) : list (list Z) := map (map toShort) (rows3 (ScQuad.scSv deg)).
Definition quadPts (deg : nat) : list (list Q) := map (fun p => [fst p; snd p]) (ScQuad.svs deg).
(** the same of lines *)
Definition lineShorts (deg : nat) : list (list Z) := map (map (fun v => v mod 65536)%Z) (rows3 (ScLine.scSvL deg)).
