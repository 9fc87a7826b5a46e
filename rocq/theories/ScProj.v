(** Projections between the DG solution and the sub-cells: tools/edge_pre/edge_pre/sc/ops/Project.py.

    Functions are functions of points of any type, a substitution is a composition, the integral over the reference element (edge_pre.int.Scalar.int) and the inverse of a matrix (sympy) are parameters. Matrices are functions
    of row and column; the sums of the loops start with zero. Numbers are reals. *)
From Coq Require Import List Arith Bool Reals.
From Verif Require Import ElSpec.
Open Scope R_scope.

Section Project.
(** i_int, by its integral; i_basis; i_maps; i_aDets *)
Variables (P : Type) (intg : (P -> R) -> R) (nb ns : nat) (basis : nat -> P -> R) (maps : nat -> P -> P) (dets : nat -> R).
(** l_aL.inv(); None: not invertible, an exception *)
Variable inv : nat -> (nat -> nat -> R) -> option (nat -> nat -> R).

(** Project.py 44, 94: integral of one *)
Definition refVol : R := intg (fun _ => 1).
(** Project.py 53-59, 86-91, 103-104: subs *)
Definition subst (f : P -> R) (m : P -> P) : P -> R := fun p => f (m p).

(** Project.py 35-67: scatter, entry of row [ro] and column [co] *)
Definition scatter (ro co : nat) : R :=
  let scVol := refVol * dets co in
  let l_basis := subst (basis ro) (maps co) in
  intg l_basis * dets co / scVol.

(** Project.py 97-112: contribution of a sub-cell to the least squares part *)
Definition lsPart (ro co sc : nat) : R :=
  let scVol := refVol * dets sc in
  let int0 := subst (basis ro) (maps sc) in
  let int1 := subst (basis co) (maps sc) in
  intg int0 * intg int1 * (dets sc * dets sc) * 2 / (scVol * scVol).
(** Project.py 117-126: entry of the last row and of the last column *)
Definition lagrange (rc : nat) : R := sum ns (fun sc => - (intg (subst (basis rc) (maps sc)) * dets sc)).
(** Project.py 83-84, 96-126 *)
Definition aL (ro co : nat) : R :=
  if (ro <? nb)%nat then (if (co <? nb)%nat then sum ns (lsPart ro co) else lagrange ro)
  else if (co <? nb)%nat then lagrange co else 0.
(** Project.py 128-141 *)
Definition aR (ro co : nat) : R := if (ro <? nb)%nat then scatter ro co * 2 else - refVol * dets co.
(** Project.py 78-150: gather, transposed: row is the sub-cell, column the basis function *)
Definition gather : option (nat -> nat -> R) :=
  match inv (S nb) aL with
  | Some X => Some (fun sc i => sum (S nb) (fun k => X i k * aR k sc))
  | None => None
  end.
End Project.
