(** Sub-grids of quads: the notions the theorems are stated with. *)
From Coq Require Import List Arith Bool QArith Reals.
From Verif Require Import ElSpec Llf LlfSpec ScQuad.
Import ListNotations.
Open Scope nat_scope.

(** inner, send and receive sub-cells, one after the other *)
Definition rows3 {A} (t : list A * list A * list A) : list A := let '(i, s, r) := t in i ++ s ++ r.
Definition rows2 {A} (t : list A * list A) : list A := fst t ++ snd t.

(** behind face [j] (0: bottom, 1: right, 2: top, 3: left) of square ([x], [y]) of a lattice of [n]x[n] squares: a square, or a part of a face of the element. The parts are counted counter-clockwise. *)
Inductive behind := Square (x y : nat) | Beyond (fa sf : nat).
Definition look (n x y j : nat) : behind :=
  match j with
  | 0 => if y =? 0 then Beyond 0 x else Square x (y - 1)
  | 1 => if x + 1 =? n then Beyond 1 y else Square (x + 1) y
  | 2 => if y + 1 =? n then Beyond 2 (n - 1 - x) else Square x (y + 1)
  | _ => if x =? 0 then Beyond 3 (n - 1 - y) else Square (x - 1) y
  end.
(** [num] numbers the squares: the inner ones first *)
Definition numbering (n : nat) (num : nat -> nat -> nat) : Prop :=
  (forall x y, x < n -> y < n -> num x y < n * n) /\
  (forall x y x' y', x < n -> y < n -> x' < n -> y' < n -> num x y = num x' y' -> x = x' /\ y = y') /\
  (forall c, c < n * n -> exists x y, x < n /\ y < n /\ num x y = c) /\
  (forall x y, x < n -> y < n -> (num x y < (n - 2) * (n - 2) <-> (0 < x < n - 1 /\ 0 < y < n - 1))).
(** number of what is behind a face: the ghost sub-cells follow the squares, face by face *)
Definition numOf (n : nat) (num : nat -> nat -> nat) (b : behind) : nat := match b with Square x y => num x y | Beyond fa sf => n * n + n * fa + sf end.
(** type of a sub-face: the element's face, plus eight inside *)
Definition typeOf (j : nat) (b : behind) : nat := match b with Square _ _ => 8 + j | Beyond fa _ => fa end.

(** ** Geometry *)
Definition peq (p q : Q * Q) : Prop := (fst p == fst q /\ snd p == snd q)%Q.
Definition frac (a n : nat) : Q := (inject_Z (Z.of_nat a) / inject_Z (Z.of_nat n))%Q.
(** [p] is vertex [i] of sub-cell [c] *)
Definition vertexOf (deg c i : nat) (p : Q * Q) : Prop :=
  exists row v p', nth_error (rows3 (scSv deg)) c = Some row /\ nth_error row i = Some (Some v) /\ nth_error (svs deg) v = Some p' /\ peq p' p.
(** corners of the square ([x], [y]), counter-clockwise *)
Definition corner (n x y i : nat) : Q * Q :=
  match i with 0 => (frac x n, frac y n) | 1 => (frac (x + 1) n, frac y n) | 2 => (frac (x + 1) n, frac (y + 1) n) | _ => (frac x n, frac (y + 1) n) end.
(** [p] is in a sub-cell: not left of and not below its first vertex, left of and below its third *)
Definition inCell (deg c : nat) (p : Q * Q) : Prop :=
  exists a b, vertexOf deg c 0 a /\ vertexOf deg c 2 b /\ (fst a <= fst p)%Q /\ (fst p < fst b)%Q /\ (snd a <= snd p)%Q /\ (snd p < snd b)%Q.
(** point of a face of the element, counter-clockwise *)
Definition facePt (fa : nat) (chi : Q) : Q * Q := match fa with 0 => (chi, 0)%Q | 1 => (1, chi)%Q | 2 => (1 - chi, 1)%Q | _ => (0, 1 - chi)%Q end.
(** the coordinate which changes along a face *)
Definition running (fa : nat) (p : Q * Q) : Q := match fa with 0 | 2 => fst p | _ => snd p end.

(** opposite faces are parallel and of the same length *)
Definition parallelogram (e : elem) : Prop :=
  nFaces e = 4 /\ forall fa, fa < 2 -> fAr (plane e (fa + 2)) = fAr (plane e fa) /\ forall i, i < 2 -> sfNormal e (Outer (fa + 2)) i = (- sfNormal e (Outer fa) i)%R.
