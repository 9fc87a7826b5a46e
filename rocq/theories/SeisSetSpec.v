(** Specification of the material parameters and time steps of seismic simulations (C96). *)
From Coq Require Import List Arith Reals QArith.
Import ListNotations.
Open Scope R_scope.

(** a medium: density and Lame parameters belong to the wave speeds vp, vs *)
Definition hasSpeeds (rho lam mu vp vs : R) : Prop := 0 < rho /\ lam + 2 * mu = rho * (vp * vp) /\ mu = rho * (vs * vs).

(** mean of the coordinates with index dm of points *)
Fixpoint sumR (l : list R) : R := match l with [] => 0 | x :: l => x + sumR l end.
Definition centre (nDim : nat) (pts : list (list R)) : list R := map (fun dm => sumR (map (fun p => nth dm p 0) pts) / INR (length pts)) (seq 0 nDim).

(** number i is the first of the domains which has the point inside *)
Definition firstInside {V} (doms : list ((list R -> bool) * V)) (x : list R) (i : nat) (v : V) : Prop :=
  (exists f, nth_error doms i = Some (f, v) /\ f x = true) /\ forall j f w, (j < i)%nat -> nth_error doms j = Some (f, w) -> f x = false.
Definition outside {V} (doms : list ((list R -> bool) * V)) (x : list R) : Prop := forall f w, In (f, w) doms -> f x = false.

(** largest stable time step of an element: half the time in which a wave passes the diameter, divided by 2 order - 1 *)
Definition limit (ord : nat) (dia vp : R) : R := dia / vp / (2 * (2 * INR ord - 1)).

(** candidates for the fundamental time step: 1, 0.99, ..., 0.51 *)
Definition candidate (i : nat) (dt : Q) : Prop := (i < 50)%nat /\ (dt == 1 - inject_Z (Z.of_nat i) / 100)%Q.
