(** Sub-grids of lines: tools/edge_pre/edge_pre/sc/grid/Line.py; the maps from the reference element to the sub-cells: tools/edge_pre/edge_pre/sc/grid/Generic.py.

    Ids are integers, as in the code. Coordinates are rational numbers. Symbolic expressions of one symbol are polynomials: lists of coefficients, lowest degree first; sympy.simplify does not change a value and is omitted. The plots
    are not modelled. *)
From Coq Require Import List Arith Bool ZArith QArith Qabs.
Import ListNotations.
Open Scope nat_scope.

(** types/Line.py: n_scs, n_fas, n_sfs *)
Definition nScs (deg : nat) : nat := 2 * deg + 1.
Definition nFas : nat := 2.
Definition nSfsL : nat := 1.
(** range(a, b) *)
Definition zrange (a b : Z) : list Z := map (fun i => (a + Z.of_nat i)%Z) (seq 0 (Z.to_nat (b - a))).
(** element of a list, negative ids count from the end; None: an exception *)
Definition pyNth {A} (l : list A) (i : Z) : option A :=
  if (i <? 0)%Z then (if (i + Z.of_nat (length l) <? 0)%Z then None else nth_error l (Z.to_nat (i + Z.of_nat (length l)))) else nth_error l (Z.to_nat i).

(** Line.py 39-41: the vertices are 0 and 1 *)
Definition incL (deg : nat) : Q := ((1 - 0) / inject_Z (Z.of_nat (nScs deg)))%Q.
(** Line.py 43-46: the loop, with the last vertex; None: still running after [fuel] iterations *)
Fixpoint svsLoop (fuel : nat) (inc last : Q) (l : list Q) : option (list Q) :=
  match fuel with
  | O => None
  | S fuel => if Qeq_bool last 1 then Some l else svsLoop fuel inc (last + inc)%Q (l ++ [(last + inc)%Q])
  end.
(** Line.py 36-48 *)
Definition svsL (fuel deg : nat) : option (list Q) := svsLoop fuel (incL deg) 0 [0%Q].

(** Line.py 56-74 *)
Definition scSvL (deg : nat) : list (list Z) * list (list Z) * list (list Z) :=
  if deg =? 0 then ([], [[0; 1]], [[-1; 0]; [1; -1]])%Z else
  let n := Z.of_nat (nScs deg) in
  (map (fun sc => [sc; sc + 1]) (zrange 1 (n - 1)), [[0; 1]; [n - 1; n]], [[0; -1]; [n; -1]])%Z.

Fixpoint upd {A} (l : list A) (i : nat) (f : A -> A) : list A :=
  match l, i with [], _ => [] | x :: l, O => f x :: l | x :: l, S i => x :: upd l i f end.
(** Line.py 82-112 *)
Definition scSfScL (deg : nat) : list (list Z) * list (list Z) * list (list Z) :=
  if deg =? 0 then ([], [[1; 2]], [[0; -1]; [0; -1]])%Z else
  let n := Z.of_nat (nScs deg) in
  let i := map (fun sc => [sc - 1; sc + 1])%Z (zrange 0 (n - 2)) in
  let i := upd i 0 (fun r => upd r 0 (fun _ => n - 2)%Z) in
  let i := upd i (length i - 1) (fun r => upd r 1 (fun _ => n - 1)%Z) in
  (i, [[n; 0]; [n - 3; n + 1]], [[n - 2; -1]; [n - 1; -1]])%Z.

(** Line.py 134-148 *)
Definition scTySfL (deg : nat) : list (list nat) * list (list nat) :=
  if deg =? 0 then ([], [[0; 1]]) else
  (map (fun _ => [4; 5]) (seq 0 (nScs deg - 2)), [[0; 5]; [4; 1]]).

(** ** Maps *)
Fixpoint qadd (a b : list Q) : list Q := match a, b with [], _ => b | _, [] => a | x :: a, y :: b => (x + y)%Q :: qadd a b end.
Definition qscal (c : Q) (a : list Q) : list Q := map (Qmult c) a.
(** Line.py 160-162: shape functions 1 - x and x *)
Definition shapes : list (list Q) := [[1; -(1)]; [0; 1]]%Q.
(** Generic.py 125-136: the only dimension of lines; None: the assertion *)
Definition refToPhy (ves : list Q) : option (list Q) :=
  if length ves =? length shapes then Some (fold_left (fun m vs => qadd m (qscal (fst vs) (snd vs))) (combine ves shapes) [0%Q]) else None.
(** Generic.py 145-161: the Jacobian of lines is the derivative of a polynomial of degree one, its coefficient *)
Definition absJacDet (m : list Q) : Q := Qabs (nth 1 m 0%Q).

Fixpoint mapO {A B} (f : A -> option B) (l : list A) : option (list B) :=
  match l with [] => Some [] | x :: l => match f x, mapO f l with Some y, Some l => Some (y :: l) | _, _ => None end end.
Definition bindO {A B} (o : option A) (f : A -> option B) : option B := match o with Some a => f a | None => None end.
(** Generic.py 79-89: coordinates of the vertices and map of a sub-cell *)
Definition mapOf (svs : list Q) (sv : list Z) : option (list Q) := bindO (mapO (pyNth svs) sv) refToPhy.
(** Generic.py 78-116: maps and determinants of inner, send and receive sub-cells *)
Definition genIntSc (svs : list Q) (scSvIn scSvSend scSfScRecv : list (list Z)) : option ((list (list Q) * list (list Q) * list (list (list Q))) * (list Q * list Q * list (list Q))) :=
  bindO (mapO (mapOf svs) scSvIn) (fun mi => bindO (mapO (mapOf svs) scSvSend) (fun ms =>
  let di := map absJacDet mi in let ds := map absJacDet ms in
  let recv {A} (flat : list A) := mapO (fun fa => mapO (fun sf => bindO (nth_error scSfScRecv (fa * nSfsL + sf)) (fun row => bindO (nth_error row 0) (pyNth flat))) (seq 0 nSfsL)) (seq 0 nFas) in
  bindO (recv (mi ++ ms)) (fun mr => bindO (recv (di ++ ds)) (fun dr => Some ((mi, ms, mr), (di, ds, dr)))))).
(** Line.py 157-173 *)
Definition intScL (fuel deg : nat) : option ((list (list Q) * list (list Q) * list (list (list Q))) * (list Q * list Q * list (list Q))) :=
  bindO (svsL fuel deg) (fun svs => let '(i, s, _) := scSvL deg in let '(_, _, r) := scSfScL deg in genIntSc svs i s r).
