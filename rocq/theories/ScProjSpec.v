(** Projections between the DG solution and the sub-cells: the notions the theorems are stated with. *)
From Coq Require Import List Arith Bool Reals.
From Verif Require Import ElSpec.
Open Scope R_scope.

(** an integral is linear *)
Definition linear {P : Type} (intg : (P -> R) -> R) : Prop :=
  (forall f g, intg (fun p => f p + g p) = intg f + intg g) /\ (forall a f, intg (fun p => a * f p) = a * intg f) /\ (forall f g, (forall p, f p = g p) -> intg f = intg g).
(** function with coefficients [c] *)
Definition expand {P : Type} (nb : nat) (basis : nat -> P -> R) (c : nat -> R) : P -> R := fun p => sum nb (fun i => c i * basis i p).
(** mean of a function over a sub-cell, the image of the reference element under [m] *)
Definition mean {P : Type} (intg : (P -> R) -> R) (m : P -> P) (f : P -> R) : R := intg (fun p => f (m p)) / intg (fun _ => 1).
(** the sub-cells, with determinants [dets], tile the element: integrals add up *)
Definition tiles {P : Type} (intg : (P -> R) -> R) (ns : nat) (maps : nat -> P -> P) (dets : nat -> R) (f : P -> R) : Prop :=
  intg f = sum ns (fun s => dets s * intg (fun p => f (maps s p))).
(** row vector times matrix *)
Definition times (n : nat) (v : nat -> R) (M : nat -> nat -> R) : nat -> R := fun j => sum n (fun i => v i * M i j).
Definition isInverse (n : nat) (M X : nat -> nat -> R) : Prop :=
  forall i j, (i < n)%nat -> (j < n)%nat -> sum n (fun k => X i k * M k j) = delta i j /\ sum n (fun k => M i k * X k j) = delta i j.
(** what sympy promises *)
Definition inverts (inv : nat -> (nat -> nat -> R) -> option (nat -> nat -> R)) : Prop := forall n M X, inv n M = Some X -> isInverse n M X.
(** otherwise it raises an exception: the matrix is singular *)
Definition complete (inv : nat -> (nat -> nat -> R) -> option (nat -> nat -> R)) : Prop :=
  forall n M, inv n M = None -> exists x, (exists i, (i < n)%nat /\ x i <> 0) /\ forall i, (i < n)%nat -> sum n (fun j => M i j * x j) = 0.

(** ** Lines *)
(** value of a polynomial with the given coefficients *)
Definition peval (l : list R) (x : R) : R := fold_right (fun a y => a + x * y) 0 l.
(** polynomials of degree at most [N] *)
Definition isPoly (N : nat) (f : R -> R) : Prop := exists l, (length l <= S N)%nat /\ forall x, f x = peval l x.
(** the integral over [0, 1] is exact for polynomials of degree [N] *)
Definition exact (N : nat) (intg : (R -> R) -> R) : Prop := forall F f, isPoly (S N) F -> (forall x, derivable_pt_lim F x (f x)) -> intg f = F 1 - F 0.
(** position of sub-cell [s] among the [n] ones of a line: inner ones first, then the first and the last one (grid/Line.py 56-74) *)
Definition lineCell (n s : nat) : nat := if (s <? n - 2)%nat then S s else if (s =? n - 1)%nat then (n - 1)%nat else 0%nat.
(** map from [0, 1] to sub-cell [s] (grid/Line.py 36-48, 157-173) *)
Definition lineMap (n s : nat) (p : R) : R := (INR (lineCell n s) + p) / INR n.
