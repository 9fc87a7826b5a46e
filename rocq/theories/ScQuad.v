(** Sub-grids of quads and the search for adjacent sub-cells: tools/edge_pre/edge_pre/sc/grid/Quad.py, tools/edge_pre/edge_pre/sc/grid/Generic.py.

    Ids are natural numbers, -1 is None. Coordinates are rational numbers. The plots and the symbolic integration (intSc, intSfDg except for the intervals) are not modelled. *)
From Coq Require Import List Arith Bool QArith.
Import ListNotations.
Open Scope nat_scope.

(** types/Quad.py: n_sfs *)
Definition nSfs (deg : nat) : nat := 2 * deg + 1.
(** range(a, b) and range(a-1, b-1, -1) *)
Definition range (a b : nat) : list nat := seq a (b - a).
Definition down (a b : nat) : list nat := rev (seq b (a - b)).

(** Quad.py 37-52: ves[0] is (0, 0), the increments are those from (0, 0) to (1, 0) and (0, 1) *)
Definition inc (deg : nat) : Q := (1 / inject_Z (Z.of_nat (nSfs deg)))%Q.
Definition svs (deg : nat) : list (Q * Q) :=
  flat_map (fun f2 => map (fun f1 => (0 + inject_Z (Z.of_nat f1) * inc deg, 0 + inject_Z (Z.of_nat f2) * inc deg)%Q) (range 0 (nSfs deg + 1))) (range 0 (nSfs deg + 1)).

Definition verts := list (option nat).
(** Quad.py 70-77 *)
Definition svIds (n f1 f2 : nat) : verts := [Some (f2 * (n + 1) + f1); Some (f2 * (n + 1) + f1 + 1); Some ((f2 + 1) * (n + 1) + f1 + 1); Some ((f2 + 1) * (n + 1) + f1)].
(** Quad.py 79-83 *)
Definition scSvIn (n : nat) : list verts := flat_map (fun f2 => map (fun f1 => svIds n f1 f2) (range 1 (n - 1))) (range 1 (n - 1)).
(** Quad.py 85-102; range(n-2, -1, -1), range(n-2, 0, -1) *)
Definition scSvSend (n : nat) : list verts :=
  map (fun f1 => svIds n f1 0) (range 0 n) ++ map (fun f2 => svIds n (n - 1) f2) (range 1 n) ++ map (fun f1 => svIds n f1 (n - 1)) (down (n - 1) 0) ++ map (fun f2 => svIds n 0 f2) (down (n - 1) 1).
(** Quad.py 105-128 *)
Definition scSvRecv (n : nat) : list verts :=
  map (fun f1 => [Some f1; Some (f1 + 1); None; None]) (range 0 n) ++
  map (fun f2 => [Some ((f2 + 1) * (n + 1) - 1); Some ((f2 + 2) * (n + 1) - 1); None; None]) (range 0 n) ++
  map (fun f1 => [Some (f1 + 1 + (n + 1) * n); Some (f1 + (n + 1) * n); None; None]) (down n 0) ++
  map (fun f2 => [Some ((f2 + 1) * (n + 1)); Some (f2 * (n + 1)); None; None]) (down n 0).
(** Quad.py 60-130 *)
Definition scSv (deg : nat) : list verts * list verts * list verts := let n := nSfs deg in (scSvIn n, scSvSend n, scSvRecv n).

(** Quad.py 144-149: faces of a sub-cell *)
Definition faces (sc : verts) : list verts :=
  let v k := nth k sc None in [[v 0; v 1]; [v 1; v 2]; [v 2; v 3]; [v 3; v 0]].
(** Quad.py 152-156 *)
Definition reset (f : verts) : verts := if existsb (fun v => match v with None => true | Some _ => false end) f then [None; None] else f.
(** Quad.py 137-158 *)
Definition scSfSv (deg : nat) : list (list verts) * list (list verts) * list (list verts) :=
  let '(i, s, r) := scSv deg in (map faces i, map faces s, map (fun sc => map reset (faces sc)) r).

Definition veq (a b : option nat) : bool := match a, b with Some a, Some b => a =? b | None, None => true | _, _ => false end.
(** Python's set( a ) == set( b ) *)
Definition setEq (a b : verts) : bool := forallb (fun x => existsb (veq x) b) a && forallb (fun x => existsb (veq x) a) b.
(** Generic.py 53-59 *)
Definition search (l : list (list verts)) (c1 : nat) (f1 : verts) : list nat :=
  flat_map (fun c2 => if c1 =? c2 then [] else flat_map (fun f2 => if setEq f1 f2 then [c2] else []) (nth c2 l [])) (seq 0 (length l)).
(** Generic.py 47-59 *)
Definition adjOfFace (l : list (list verts)) (c1 : nat) (f1 : verts) : list (option nat) :=
  if forallb (fun v => match v with None => true | Some _ => false end) f1 then [None] else map Some (search l c1 f1).
(** Generic.py 33-64 *)
Definition genScSfSc (i s r : list (list verts)) : list (list (option nat)) * list (list (option nat)) * list (list (option nat)) :=
  let l := i ++ s ++ r in
  let t := map (fun c1 => flat_map (adjOfFace l c1) (nth c1 l [])) (seq 0 (length l)) in
  (firstn (length i) t, firstn (length s) (skipn (length i) t), skipn (length i + length s) t).
(** Quad.py 166-175 *)
Definition scSfSc (deg : nat) : list (list (option nat)) * list (list (option nat)) * list (list (option nat)) :=
  let '(i, s, r) := scSfSv deg in genScSfSc i s r.

(** Quad.py 294-336; n_scs_in of types/Quad.py *)
Definition scTySf (deg : nat) : list (list nat) * list (list nat) :=
  if deg =? 0 then ([], [[0; 1; 2; 3]]) else
  let n := nSfs deg in
  let mid x := map (fun _ => x) (range 1 (n - 1)) in
  (repeat [8; 9; 10; 11] (n * n + 4 - 4 * n),
   [[0; 9; 10; 3]] ++ mid [0; 9; 10; 11] ++ [[0; 1; 10; 11]] ++ mid [8; 1; 10; 11] ++ [[8; 1; 2; 11]] ++ mid [8; 9; 2; 11] ++ [[8; 9; 2; 3]] ++ mid [8; 9; 10; 3]).

(** Quad.py 346-353 *)
Definition scDgAd (deg : nat) : list nat := rev (range 0 (nSfs deg)).

(** Quad.py 233-261: intervals of the sub-faces in the running coordinate of the face *)
Definition intSf (deg fa sf : nat) : Q * Q :=
  let i := inc deg in let a := inject_Z (Z.of_nat sf) in let b := inject_Z (Z.of_nat (sf + 1)) in
  match fa with
  | 0 | 1 => (0 + a * i, 0 + b * i)%Q
  | _ => (1 - b * i, 1 - a * i)%Q
  end.
