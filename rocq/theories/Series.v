(** Integration of sampled time series (src/linalg/Series.hpp).

    Simplifications: exact rational arithmetic; one series (the loops over the series treat all series alike and independently). *)
From Coq Require Import QArith Qminmax Qround.
From Verif Require Import Util.
Open Scope nat_scope.

Definition qn (n : nat) : Q := inject_Z (Z.of_nat n).

(** conversion of a non-negative floating point number to std::size_t *)
Definition trunc (q : Q) : nat := Z.to_nat (Qfloor q).

Definition qlt (a b : Q) : bool := match (a ?= b)%Q with Lt => true | _ => false end.

(** src/linalg/Series.hpp 60-134; [tol] is TOL.LINALG.  An empty series is outside the model (i_nPts-1 wraps around). *)
Definition integrate (tol dx xs : Q) (vals : list Q) (x1 x2 na : Q) : res Q :=
  let nPts := length vals in
  if nPts =? 0 then Er Eub else
  let dxH := (dx * (1#2))%Q in
  let first := trunc (Qmax ((x1 - xs + dx) / dx) 0) in
  let last := trunc (Qmax ((x2 - xs) / dx) 0) in
  let last := Nat.min last (nPts - 1) in
  let first := Nat.min first last in
  s <- for_ (first + 1) (last + 1) (fun pt s =>
    a <- rd vals pt;; b <- rd vals (pt - 1);; Ok (s + dxH * (a - b) + b * dx)%Q) 0%Q;;
  let tEnd := (xs + qn (nPts - 1) * dx)%Q in
  let bL := qlt xs (x1 + tol) && qlt (x1 - tol) tEnd in
  let bR := qlt xs (x2 + tol) && qlt (x2 - tol) tEnd in
  let diff := (xs + qn first * dx - x1)%Q in
  s <- (if (0 <? first) && bL then
          a <- rd vals (first - 1);; b <- rd vals first;; Ok (s + (1#2) * diff * (diff / dx) * (a - b) + b * diff)%Q
        else Ok (s + na * diff)%Q);;
  let diff := (x2 - (xs + qn last * dx))%Q in
  if (last <? nPts - 1) && bR then
    a <- rd vals (last + 1);; b <- rd vals last;; Ok (s + (1#2) * diff * (diff / dx) * (a - b) + b * diff)%Q
  else Ok (s + na * diff)%Q.
