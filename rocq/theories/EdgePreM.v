(** Matrices as EDGEpre derives these (tools/edge_pre): mass, stiffness and flux matrices.  The basis functions are the polynomials with which EDGEpre's functions agree
    (C83_edge_pre).  Simplification: sympy.integrate is exact; Scalar.int (tools/edge_pre/edge_pre/int/Scalar.py 67-79) switches to a quadrature for long expressions. *)
From Coq Require Import List ZArith Reals Lra Lia Bool.
From Verif Require Import Util BasisSpec BasisInt Basis BasisDer.
Import ListNotations.
Local Open Scope R_scope.

Definition matrix := nat -> nat -> R.
(** matrix product with inner dimension n, transpose, inverse (sympy) *)
Definition mmul (n : nat) (a b : matrix) : matrix := fun i j => rsum n (fun k => a i k * b k j).
Definition tr (a : matrix) : matrix := fun i j => a j i.
Definition delta (i j : nat) : R := if (i =? j)%nat then 1 else 0.
Definition isInv (n : nat) (a b : matrix) : Prop := forall i j, (i < n)%nat -> (j < n)%nat -> mmul n a b i j = delta i j /\ mmul n b a i j = delta i j.
(** basis function [b] of an order (EDGEpre: degree plus one) *)
Definition bas (el : refEl) (n b : nat) : R -> R -> R -> R := phi el (modeAt el n b).

(** *** Element types: tools/edge_pre/edge_pre/types *)
(** edge_pre.py 185, 270, 355, 432: the faces' basis *)
Definition faEl (el : refEl) : refEl := match el with Hex => Quad | Tet => Tria | _ => Line end.
Definition nFas (el : refEl) : nat := match el with Line => 2 | Tria => 3 | Quad | Tet => 4 | Hex => 6 end.
Definition nOri (el : refEl) : nat := match el with Tet => 3 | _ => 1 end.
(** faToEl: Tria.py 80-87, Quad.py 81-89, Hex.py 90-101, Tet.py 88-97: element coordinates of a point of a face *)
Definition faToEl (el : refEl) (fa : nat) (c1 c2 : R) : R * R * R :=
  match el, fa with
  | Tria, O => (c1, 0, 0) | Tria, 1%nat => (1 - c1, c1, 0) | Tria, _ => (0, 1 - c1, 0)
  | Quad, O => (c1, 0, 0) | Quad, 1%nat => (1, c1, 0) | Quad, 2%nat => (1 - c1, 1, 0) | Quad, _ => (0, 1 - c1, 0)
  | Hex, O => (c2, c1, 0) | Hex, 1%nat => (c1, 0, c2) | Hex, 2%nat => (1, c1, c2) | Hex, 3%nat => (c2, 1, c1) | Hex, 4%nat => (0, c2, c1) | Hex, _ => (c1, c2, 1)
  | Tet, O => (c2, c1, 0) | Tet, 1%nat => (c1, 0, c2) | Tet, 2%nat => (0, c2, c1) | Tet, _ => (1 - c1 - c2, c1, c2)
  | Line, O => (0, 0, 0) | Line, _ => (1, 0, 0)
  end.
(** faToFa: Tria.py 67-72, Quad.py 68-73, Hex.py 76-82, Tet.py 72-80: coordinates of the adjacent element's face *)
Definition faToFa (el : refEl) (ve : nat) (c1 c2 : R) : R * R :=
  match el, ve with
  | Tet, O => (c2, c1) | Tet, 1%nat => (1 - c1 - c2, c2) | Tet, _ => (c1, 1 - c1 - c2)
  | Hex, _ => (c2, c1)
  | _, _ => (1 - c1, 0)
  end.
Definition at3 (f : R -> R -> R -> R) (t : R * R * R) : R := let '(x, y, z) := t in f x y z.
(** a function on the element at a point of a face; a function on a face at a point of the adjacent element's face *)
Definition onFace (el : refEl) (fa : nat) (f : R -> R -> R -> R) : R -> R -> R -> R := fun c1 c2 _ => at3 f (faToEl el fa c1 c2).
Definition turned (el : refEl) (ve : nat) (f : R -> R -> R -> R) : R -> R -> R -> R := fun c1 c2 _ => f (fst (faToFa el ve c1 c2)) (snd (faToFa el ve c1 c2)) 0.

(** *** int/Matrices.py *)
(** 92-102 (mass) *)
Definition isMass (el : refEl) (n : nat) (m : matrix) : Prop := forall ro co, (ro < nMds el n)%nat -> (co < nMds el n)%nat -> intEl el (fun x y z => bas el n ro x y z * bas el n co x y z) (m ro co).
(** 113-134 (stiff) *)
Definition isStiff (el : refEl) (n di : nat) (s : matrix) : Prop := forall ro co, (ro < nMds el n)%nat -> (co < nMds el n)%nat ->
  exists d, isder di (bas el n co) d /\ intEl el (fun x y z => bas el n ro x y z * d x y z) (s ro co).
(** 185-209: integrals of the projections, before the multiplication with the inverse mass matrix *)
Definition isProj (el : refEl) (n fa : nat) (p : matrix) : Prop := forall ro co, (ro < nMds el n)%nat -> (co < nMds (faEl el) n)%nat ->
  intEl (faEl el) (fun x y z => bas (faEl el) n co x y z * onFace el fa (bas el n ro) x y z) (p ro co).
(** 218-247: matrices of the vertex orientations *)
Definition isOri (el : refEl) (n ve : nat) (o : matrix) : Prop := forall ro co, (ro < nMds (faEl el) n)%nat -> (co < nMds (faEl el) n)%nat ->
  intEl (faEl el) (fun x y z => turned el ve (bas (faEl el) n ro) x y z * bas (faEl el) n co x y z) (o ro co).
Definition equal (n m : nat) (a b : matrix) : Prop := forall i j, (i < n)%nat -> (j < m)%nat -> a i j = b i j.

(** *** edge_pre.py 500-538; Matrices.py 211-216 for the projections [pj]; elements of two and three dimensions (lines are handled separately, Matrices.py 156-177) *)
Definition preMats (el : refEl) (n : nat) (stiffT stiffV fluxL fluxN fluxT : nat -> matrix) : Prop :=
  let N := nMds el n in let F := nMds (faEl el) n in
  exists mass massI massFa massFaI, exists stiff proj0 pj ori : nat -> matrix,
    isMass el n mass /\ isInv N mass massI /\ isMass (faEl el) n massFa /\ isInv F massFa massFaI /\
    (forall di, (di < dim el)%nat -> isStiff el n di (stiff di) /\ equal N N (stiffT di) (mmul N (tr (stiff di)) massI) /\ equal N N (stiffV di) (mmul N (stiff di) massI)) /\
    (forall fa, (fa < nFas el)%nat -> isProj el n fa (proj0 fa) /\ equal N F (pj fa) (mmul F (proj0 fa) massFaI) /\
       equal N F (fluxL fa) (mmul F (pj fa) massFa) /\ equal F N (fluxT fa) (mmul N (tr (pj fa)) massI)) /\
    (forall ve, (ve < nOri el)%nat -> isOri el n ve (ori ve)) /\
    (forall ve fa, (ve < nOri el)%nat -> (fa < nFas el)%nat -> equal N F (fluxN (ve * nFas el + fa)%nat) (mmul F (pj fa) (ori ve))).

(** *** The generated arrays and the solver's matrices *)
(** float3d of tools/edge_pre/edge_pre/io/ArrStr.py: row after row; the arrays are compiled into the solver (pre::dg::g_stiffVRaw, ..., src/dg/Basis.h 35-62) *)
Definition rawOf (k r c : nat) (m : nat -> matrix) : list R := flat_map (fun d => flat_map (fun i => map (m d i) (seq 0 c)) (seq 0 r)) (seq 0 k).
(** [k] matrices of [len] entries, one after another *)
Definition cut (k len : nat) (l : list R) : list (list R) := map (fun d => firstn len (skipn (d * len) l)) (seq 0 k).
(** src/dg/Basis.h 344-366 (getStiffMm1Dense) *)
Definition getStiff (nDim nMd : nat) (raw : list R) : res (list (list R)) := _ <- check (length raw =? nMd * nMd * nDim)%nat ;; Ok (cut nDim (nMd * nMd) raw).
(** src/dg/Basis.h 377-405 (getFluxDense), src/dg/SurfInt.hpp 76-134 (storeFluxDense): local and neighboring matrices, back to the element *)
Definition getFlux (nFa nFmn nMd nMdFa : nat) (rawL rawN rawT : list R) : res (list (list R) * list (list R)) :=
  _ <- check (length rawL =? nFa * nMd * nMdFa)%nat ;; _ <- check (length rawN =? nFmn * nMd * nMdFa)%nat ;; _ <- check (length rawT =? nFa * nMd * nMdFa)%nat ;;
  Ok (cut nFa (nMd * nMdFa) rawL ++ cut nFmn (nMd * nMdFa) rawN, cut nFa (nMdFa * nMd) rawT).
