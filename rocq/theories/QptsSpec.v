(** Specification of the quadrature rules: the contract of the external library, the affine maps of the elements, polynomials in physical coordinates. *)
From Coq Require Import List Reals Lra Lia.
From Verif Require Import BasisSpec BasisInt.
Import ListNotations.
Local Open Scope R_scope.

(** The contract of the external library: the pairs 1..n are a Gauss-Legendre rule of n points, nodes strictly between -1 and 1, exact for the powers below 2n. *)
Definition isGauss (gl : nat -> nat -> R * R) (n : nat) : Prop :=
  (forall k, (1 <= k <= n)%nat -> -1 < fst (gl n k) < 1)
  /\ forall m, (m < 2 * n)%nat -> dint (fun x => x ^ m) (-1) 1 (rsum n (fun k => snd (gl n (S k)) * fst (gl n (S k)) ^ m)).

(** Vertices: three rows of coordinates, one entry per vertex.  *)
Definition vx (v : list (list R)) (d i : nat) : R := nth i (nth d v []) 0.
(** edge from vertex 0 to vertex i *)
Definition edg (v : list (list R)) (i d : nat) : R := vx v d i - vx v d 0.
(** the vertices at the ends of the edges of the reference axes *)
Definition ax (el : refEl) (k : nat) : nat :=
  match k, el with O, _ => 1 | 1, (Quad | Hex) => 3 | 1, _ => 2 | _, Hex => 4 | _, _ => 3 end%nat.
(** the affine map of the reference element to the element *)
Definition affMap (el : refEl) (v : list (list R)) (x y z : R) (d : nat) : R :=
  vx v d 0 + x * edg v (ax el 0) d + (if (1 <? dim el)%nat then y * edg v (ax el 1) d else 0) + (if (2 <? dim el)%nat then z * edg v (ax el 2) d else 0).
(** the change of volume: length, area (in the plane), volume spanned by the edges *)
Definition cross2 (v : list (list R)) (i j : nat) : R := edg v i 0 * edg v j 1 - edg v i 1 * edg v j 0.
Definition triple (v : list (list R)) (i j k : nat) : R :=
  edg v i 0 * (edg v j 1 * edg v k 2 - edg v j 2 * edg v k 1) - edg v i 1 * (edg v j 0 * edg v k 2 - edg v j 2 * edg v k 0) + edg v i 2 * (edg v j 0 * edg v k 1 - edg v j 1 * edg v k 0).
Definition volJ (el : refEl) (v : list (list R)) : R :=
  match el with
  | Line => sqrt (edg v 1 0 * edg v 1 0 + edg v 1 1 * edg v 1 1 + edg v 1 2 * edg v 1 2)
  | Quad | Tria => cross2 v (ax el 0) (ax el 1)
  | _ => triple v (ax el 0) (ax el 1) (ax el 2)
  end.
(** volumes of the reference elements *)
Definition refVol (el : refEl) : R := match el with Tria => 1 / 2 | Tet => 1 / 6 | _ => 1 end.

(** Elements the rules are meant for: lines in space, triangles and axis-parallel rectangles of the plane, parallelepipeds and tetrahedra, larger than the tolerance. *)
Definition wellShaped (tol : R) (el : refEl) (v : list (list R)) : Prop :=
  match el with
  | Line => True
  | Tria => (forall i, vx v 2 i = 0) /\ tol < volJ Tria v
  | Quad => (forall i, vx v 2 i = 0) /\ edg v 1 1 = 0 /\ edg v 3 0 = 0 /\ (forall d, edg v 2 d = edg v 1 d + edg v 3 d) /\ tol < edg v 1 0 /\ tol < edg v 3 1 /\ tol < volJ Quad v
  | Hex => (forall d, edg v 2 d = edg v 1 d + edg v 3 d /\ edg v 5 d = edg v 1 d + edg v 4 d /\ edg v 6 d = edg v 1 d + edg v 3 d + edg v 4 d /\ edg v 7 d = edg v 3 d + edg v 4 d) /\ tol < volJ Hex v
  | Tet => tol < volJ Tet v
  end.
(** a hexahedron with edges along the axes *)
Definition isBox (v : list (list R)) : Prop := edg v 1 1 = 0 /\ edg v 1 2 = 0 /\ edg v 3 0 = 0 /\ edg v 3 2 = 0 /\ edg v 4 0 = 0 /\ edg v 4 1 = 0.

(** Polynomials in the physical coordinates: finite sums of monomials with admitted exponents. *)
Definition polyOf (ok : nat -> nat -> nat -> Prop) (f : R -> R -> R -> R) : Prop :=
  exists l : list (R * (nat * nat * nat)), (forall c i j k, In (c, (i, j, k)) l -> ok i j k)
    /\ forall x y z, f x y z = fold_right Rplus 0 (map (fun t => let '(c, (i, j, k)) := t in c * (x ^ i * y ^ j * z ^ k)) l).
Definition totalDeg (N i j k : nat) : Prop := (i + j + k < N)%nat.
Definition eachDeg (N i j k : nat) : Prop := (i < N /\ j < N /\ k < N)%nat.
(** degrees a rule of n points per dimension is exact for are below *)
Definition exactDeg (el : refEl) (n : nat) : nat := match el with Tria => 2 * n - 1 | Tet => 2 * n - 2 | _ => 2 * n end%nat.

(** the sum of a rule: points and weights *)
Definition rule (qs : list (R * R * R * R)) (f : R -> R -> R -> R) : R := fold_right Rplus 0 (map (fun q => let '(x, y, z, w) := q in w * f x y z) qs).
