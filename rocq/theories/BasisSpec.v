(** Specification: the orthogonal polynomials on the reference elements, and integrals over these. *)
From Coq Require Import List ZArith Reals Lra Lia Bool.
Import ListNotations.
Local Open Scope R_scope.

(** *** Basis functions *)
(** Jacobi polynomials P_n^(a,0) in powers of (x-1)/2; [C] is the binomial coefficient of the standard library *)
Definition jacobi (n a : nat) (x : R) : R := sum_f_R0 (fun m => C n m * C (n + a + m) n * ((x - 1) / 2) ^ m) n.
(** the homogeneous polynomial v^n P_n^(a,0)(2u/v - 1) *)
Definition hom (n a : nat) (u v : R) : R := sum_f_R0 (fun m => C n m * C (n + a + m) n * (u - v) ^ m * v ^ (n - m)) n.

Inductive refEl := Line | Quad | Tria | Hex | Tet.
Definition dim (el : refEl) : nat := match el with Line => 1 | Quad | Tria => 2 | Hex | Tet => 3 end.
(** a mode: one degree per coordinate *)
Definition mode := (nat * nat * nat)%type.
Definition phi (el : refEl) (m : mode) (x y z : R) : R :=
  let '(p, q, r) := m in
  match el with
  | Line => hom p 0 x 1
  | Quad => hom p 0 x 1 * hom q 0 y 1
  | Tria => hom p 0 x (1 - y) * hom q (2 * p + 1) y 1
  | Hex => hom p 0 x 1 * hom q 0 y 1 * hom r 0 z 1
  | Tet => hom p 0 x (1 - y - z) * hom q (2 * p + 1) y (1 - z) * hom r (2 * p + 2 * q + 2) z 1
  end.
(** the modes of an order, in the program's numbering: all of degree less than the order *)
Definition level (el : refEl) (n de : nat) : list mode :=
  match el with
  | Tria => map (fun p => (p, de - p, 0)%nat) (seq 0 (S de))
  | Tet => flat_map (fun p => map (fun q => (p, q, de - p - q)%nat) (seq 0 (S (de - p)))) (seq 0 (S de))
  | Line => [(de, 0, 0)%nat]
  | Quad => map (fun p => (p, de, 0)%nat) (seq 0 n)
  | Hex => flat_map (fun q => map (fun p => (p, q, de)%nat) (seq 0 n)) (seq 0 n)
  end.
Definition modes (el : refEl) (n : nat) : list mode := flat_map (level el n) (seq 0 n).

(** *** Integrals: differences of an antiderivative, dimension by dimension *)
Definition dint (f : R -> R) (a b I : R) : Prop := exists F, (forall x, derivable_pt_lim F x (f x)) /\ I = F b - F a.
Definition intEl (el : refEl) (f : R -> R -> R -> R) (I : R) : Prop :=
  match el with
  | Line => dint (fun x => f x 0 0) 0 1 I
  | Quad => exists g, (forall y, dint (fun x => f x y 0) 0 1 (g y)) /\ dint g 0 1 I
  | Tria => exists g, (forall y, dint (fun x => f x y 0) 0 (1 - y) (g y)) /\ dint g 0 1 I
  | Hex => exists g h, (forall y z, dint (fun x => f x y z) 0 1 (g y z)) /\ (forall z, dint (fun y => g y z) 0 1 (h z)) /\ dint h 0 1 I
  | Tet => exists g h, (forall y z, dint (fun x => f x y z) 0 (1 - y - z) (g y z)) /\ (forall z, dint (fun y => g y z) 0 (1 - z) (h z)) /\ dint h 0 1 I
  end.
(** the mode of number [b] of the basis of an order *)
Definition modeAt (el : refEl) (order b : nat) : mode := nth b (modes el order) (0, 0, 0)%nat.
(** total degree of a mode *)
Definition deg (m : mode) : nat := let '(p, q, r) := m in (p + q + r)%nat.
(** partial derivative of a basis function at a point: [d] is the limit of the difference quotients in coordinate [di] *)
Definition partial (f : R -> R -> R -> R) (di : nat) (x y z d : R) : Prop :=
  match di with O => derivable_pt_lim (fun t => f t y z) x d | S O => derivable_pt_lim (fun t => f x t z) y d | _ => derivable_pt_lim (fun t => f x y t) z d end.
(** squares of the norms of the basis functions *)
Definition norm2 (el : refEl) (m : mode) : R :=
  let '(p, q, r) := m in
  match el with
  | Line => / INR (2 * p + 1)
  | Quad => / INR (2 * p + 1) * / INR (2 * q + 1)
  | Tria => / INR (2 * p + 1) * / INR (2 * p + 2 * q + 2)
  | Hex => / INR (2 * p + 1) * / INR (2 * q + 1) * / INR (2 * r + 1)
  | Tet => / INR (2 * p + 1) * / INR (2 * p + 2 * q + 2) * / INR (2 * p + 2 * q + 2 * r + 3)
  end.
