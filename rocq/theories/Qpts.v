(** Quadrature points (src/dg/QuadraturePoints.h), the tables of the basis at the quadrature points (src/dg/Basis.cpp) and the initial values with the error norms
    (src/setups/InitialDofs.hpp).
    Simplifications: exact real arithmetic, a division by zero gives no number ([number] of Basis.v); unbounded integers; the vectors of points are filled in the order of
    their indices; the asserts are checks; OpenMP and the single precision of the stored values are left out.
    The external library FastGL is the parameter [gl]: [gl n k] is the pair (point, weight) of fastgl::GLPair( n, k ); the external expressions of exprtk are functions from the
    coordinates and the present values of the quantities to their new values. *)
From Coq Require Import List ZArith Reals Lra Lia Bool.
From Verif Require Import Util BasisSpec Basis.
From Verif Require Mapping Comm.
Import ListNotations.
Local Open Scope R_scope.

Notation mapM := Comm.mapM.
Definition rlt (a b : R) : bool := if Rlt_dec a b then true else false.
Definition ent (el : refEl) : Mapping.ent := match el with Line => Mapping.LINE | Quad => Mapping.QUAD4R | Tria => Mapping.TRIA3 | Hex => Mapping.HEX8R | Tet => Mapping.TET4 end.

(** a point and its weight *)
Definition qpt := (R * R * R * R)%type.
Definition qW (q : qpt) : R := snd q.
(** coordinates of vertices: three rows, one entry per vertex *)
Definition crd (v : list (list R)) (d i : nat) : R := nth i (nth d v []) 0.

Section Points.
Variable gl : nat -> nat -> R * R.
(** TOL.MESH *)
Variable tol : R.

(** QuadraturePoints.h 54-77 (gaussLegendre) *)
Definition gaussLegendre (n : nat) : res (list (R * R)) :=
  _ <- check (0 <? n)%nat ;;
  Ok (map (fun qp => let '(x, w) := gl n (n - qp) in ((x + 1) * (1 / 2), w * (1 / 2))) (seq 0 n)).

(** Mappings.hpp 49-56 (distPts) *)
Definition sq (a : R) : R := a * a.
Definition dist (ax ay az bx by_ bz : R) : R := sqrt (sq (bx - ax) + sq (by_ - ay) + sq (bz - az)).
(** Mappings.hpp 81-104 (map2dLine): the coordinates of the first line are [f], of the second line [t] *)
Definition map2dLine (f t : list (list R)) (p : R * R * R) : R * R * R :=
  let '(x, y, z) := p in
  let sc := dist (crd f 0 0) (crd f 1 0) (crd f 2 0) x y z / dist (crd f 0 0) (crd f 1 0) (crd f 2 0) (crd f 0 1) (crd f 1 1) (crd f 2 1) in
  (crd t 0 0 + sc * (crd t 0 1 - crd t 0 0), crd t 1 0 + sc * (crd t 1 1 - crd t 1 0), crd t 2 0 + sc * (crd t 2 1 - crd t 2 0)).
(** QuadraturePoints.h 96-137 (getQptsLine) *)
Definition qptsLine (n : nat) (v : list (list R)) : res (list qpt) :=
  ps <- gaussLegendre n ;;
  let scale := dist (crd v 0 0) (crd v 1 0) (crd v 2 0) (crd v 0 1) (crd v 1 1) (crd v 2 1) in
  Ok (map (fun p => (map2dLine [[0; 1]; [0; 0]; [0; 0]] v (fst p, 0, 0), snd p * scale)) ps).

(** QuadraturePoints.h 169-181: extents in one dimension *)
Definition lo (r : list R) : R := fold_left Rmin [nth 1 r 0; nth 2 r 0; nth 3 r 0] (nth 0 r 0).
Definition hi (r : list R) : R := fold_left Rmax [nth 1 r 0; nth 2 r 0; nth 3 r 0] (nth 0 r 0).
(** QuadraturePoints.h 157-230 (getQptsQuad4); three free dimensions: l_dims[2] is written out of bounds (189); less than two: the assert fails (194) *)
Definition qptsQuad (n : nat) (v : list (list R)) : res (list qpt) :=
  ps <- gaussLegendre n ;;
  let l d := lo (nth d v []) in let h d := hi (nth d v []) in
  let free d := rlt tol (h d - l d) in
  let at_ d (p : R * R) := (h d - l d) * fst p + l d in
  let det d0 d1 := (h d0 - l d0) * (h d1 - l d1) in
  let pts (f : R * R -> R * R -> R * R * R) d0 d1 :=
    _ <- check (rlt tol (det d0 d1)) ;;
    Ok (flat_map (fun p1 => map (fun p2 => (f p1 p2, snd p1 * snd p2 * det d0 d1)) ps) ps) in
  match filter free [0; 1; 2]%nat with
  | [0; 1]%nat => pts (fun p1 p2 => (at_ 0%nat p2, at_ 1%nat p1, l 2%nat)) 0%nat 1%nat
  | [0; 2]%nat => pts (fun p1 p2 => (at_ 0%nat p2, l 1%nat, at_ 2%nat p1)) 0%nat 2%nat
  | [1; 2]%nat => pts (fun p1 p2 => (l 0%nat, at_ 1%nat p2, at_ 2%nat p1)) 1%nat 2%nat
  | [_; _; _] => Er Eub
  | _ => Er Echeck
  end.

(** Matrix.h 108-123 (det) of the Jacobian of Mappings.hpp 189-230 *)
Definition jac (el : refEl) (v : list (list R)) : res (list (list R)) := Mapping.evalJac 0 1 Rplus Rminus Rmult Ropp (ent el) v.
Definition det2 (m : list (list R)) : R := crd m 0 0 * crd m 1 1 - crd m 0 1 * crd m 1 0.
Definition det3 (m : list (list R)) : R :=
  crd m 0 0 * (crd m 1 1 * crd m 2 2 - crd m 1 2 * crd m 2 1) - crd m 0 1 * (crd m 1 0 * crd m 2 2 - crd m 1 2 * crd m 2 0) + crd m 0 2 * (crd m 1 0 * crd m 2 1 - crd m 1 1 * crd m 2 0).
Definition toPhy (el : refEl) (v : list (list R)) (xi : list R) : res (list R) := Mapping.refToPhy 0 1 Rplus Rminus Rmult (ent el) v xi.

(** QuadraturePoints.h 273-278, 436-441: points in [-1,1] *)
Definition scaled (ps : list (R * R)) : list (R * R) := map (fun p => (fst p * 2 - 1, snd p * 2)) ps.
(** QuadraturePoints.h 261-337 (getQPtsTria3) *)
Definition qptsTria (n : nat) (v : list (list R)) : res (list qpt) :=
  ps <- gaussLegendre n ;; let ps := scaled ps in
  let rf := flat_map (fun p1 => map (fun p2 =>
    ((fst p1 + 1) * (fst p2 - 1) / -4, (fst p2 + 1) / 2, snd p1 * snd p2 * (fst p2 - 1) / -8)) ps) ps in
  mapM (fun q => let '(xi, eta, w) := q in
    pt <- toPhy Tria v [xi; eta] ;; j <- jac Tria v ;; _ <- check (rlt tol (det2 j)) ;; Ok (nth 0 pt 0, nth 1 pt 0, 0, w * det2 j)) rf.

(** QuadraturePoints.h 356-392 (getQPtsHex8r) *)
Definition qptsHex (n : nat) (v : list (list R)) : res (list qpt) :=
  ps <- gaussLegendre n ;;
  mapM (fun q => let '(p1, p2, p3) := q in
    pt <- toPhy Hex v [fst p3; fst p2; fst p1] ;; j <- jac Hex v ;; _ <- check (rlt tol (det3 j)) ;;
    Ok (nth 0 pt 0, nth 1 pt 0, nth 2 pt 0, snd p1 * snd p2 * snd p3 * det3 j))
    (flat_map (fun p1 => flat_map (fun p2 => map (fun p3 => (p1, p2, p3)) ps) ps) ps).

(** QuadraturePoints.h 424-512 (getQPtsTet4) *)
Definition qptsTet (n : nat) (v : list (list R)) : res (list qpt) :=
  ps <- gaussLegendre n ;; let ps := scaled ps in
  let rf := flat_map (fun p1 => flat_map (fun p2 => map (fun p3 =>
    ((fst p1 + 1) * (fst p2 - 1) * (fst p3 - 1) / 8, (fst p2 + 1) * (fst p3 - 1) / -4, (fst p3 + 1) / 2,
     snd p1 * snd p2 * snd p3 * (fst p2 - 1) * (fst p3 - 1) * (fst p3 - 1) / -64)) ps) ps) ps in
  mapM (fun q => let '(xi, eta, zeta, w) := q in
    pt <- toPhy Tet v [xi; eta; zeta] ;; j <- jac Tet v ;; _ <- check (rlt tol (det3 j)) ;; Ok (nth 0 pt 0, nth 1 pt 0, nth 2 pt 0, w * det3 j)) rf.

(** QuadraturePoints.h 532-582 (getQpts) *)
Definition getQpts (el : refEl) (n : nat) (v : list (list R)) : res (list qpt) :=
  match el with Line => qptsLine n v | Quad => qptsQuad n v | Tria => qptsTria n v | Hex => qptsHex n v | Tet => qptsTet n v end.

(** constants.hpp 594-601: C_REF_ELEMENT.VE, all three dimensions *)
Definition refVes (el : refEl) : list (list R) :=
  match el with
  | Line => [[0; 1]; [0; 0]; [0; 0]]
  | Quad => [[0; 1; 1; 0]; [0; 0; 1; 1]; [0; 0; 0; 0]]
  | Tria => [[0; 1; 0]; [0; 0; 1]; [0; 0; 0]]
  | Hex => [[0; 1; 1; 0; 0; 1; 1; 0]; [0; 0; 1; 1; 0; 0; 1; 1]; [0; 0; 0; 0; 1; 1; 1; 1]]
  | Tet => [[0; 1; 0; 0]; [0; 0; 1; 0]; [0; 0; 0; 1]]
  end.

(** *** The basis at the quadrature points *)
(** m_qpEval[pq]: weights, and values [quadrature point][order - 1][mode] *)
Record qpEval := mkQp { qpW : list R; qpVal : list (list (list number)) }.
(** Basis.cpp 79-134 (initEvalQpRefEl); the derivatives are evaluated, but not stored in the model *)
Definition initEval (el : refEl) (o : nat) : res (list qpEval) :=
  mapM (fun pq =>
    qs <- getQpts el (pq + 1) (refVes el) ;;
    vals <- mapM (fun q => let '(x, y, z, _) := q in
      mapM (fun pb => mapM (fun md =>
        v <- evalBasis el md x y z (-1) (pb + 1) ;;
        _ <- mapM (fun di => evalBasis el md x y z (Z.of_nat di) (pb + 1)) (seq 0 (dim el)) ;; Ok v)
        (seq 0 (nMds el (pb + 1)))) (seq 0 o)) qs ;;
    Ok (mkQp (map qW qs) vals)) (seq 0 o).

(** Matrix.h 611-633 (denseToCrd): triples (row, column, value); the default tolerance is 10^-6 *)
Definition denseToCrd (tolD : R) (n : nat) (a : nat -> R) : list (nat * nat * R) :=
  flat_map (fun ro => flat_map (fun co => if rlt tolD (Rabs (a (ro * n + co)%nat)) then [(ro, co, a (ro * n + co)%nat)] else []) (seq 0 n)) (seq 0 n).

(** the members of dg::Basis; [raw]: g_massRaw *)
Record basis := mkBasis { bEl : refEl; bO : nat; bMass : list (nat * nat * R); bQp : list qpEval }.
(** Basis.cpp 34-67 (initMassMatrix, constructor) *)
Definition newBasis (el : refEl) (o : nat) (raw : list R) : res basis :=
  _ <- check (length raw =? nMds el o * nMds el o)%nat ;;
  qp <- initEval el (o + 1) ;;
  Ok (mkBasis el o (denseToCrd (1 / 1000000) (nMds el o) (fun i => nth i raw 0)) qp).

Definition nadd := nlift Rplus.
Definition nmul := nlift Rmult.
Definition ndiv (a : number) (b : R) : number := match a with Some u => if Req_EM_T b 0 then None else Some (u / b) | None => None end.
(** value of basis function [md] at quadrature point [qp]: m_qpEval[oq-1].basis[qp][m_order-1].val[md] *)
Definition basVal (b : basis) (oq qp md : nat) : res number :=
  t <- rd (bQp b) (oq - 1) ;; l <- rd (qpVal t) qp ;; l <- rd l (bO b - 1) ;; rd l md.
(** Basis.cpp 136-161 (qpts2modal) *)
Definition qpts2modal (b : basis) (f : list R) (oq : nat) : res (list number) :=
  _ <- check (0 <? oq)%nat ;; _ <- check (oq <=? length (bQp b))%nat ;;
  mapM (fun md =>
    t <- rd (bQp b) (oq - 1) ;;
    s <- for_ 0 (length (qpW t)) (fun qp s => fv <- rd f qp ;; v <- basVal b oq qp md ;; w <- rd (qpW t) qp ;; Ok (nadd s (nmul (nmul (Some fv) v) (Some w)))) (Some 0) ;;
    match nth_error (bMass b) md with
    | Some (ro, co, m) => _ <- check (ro =? co)%nat ;; Ok (ndiv s m)
    | None => Er Echeck
    end) (seq 0 (nMds (bEl b) (bO b))).
(** Basis.cpp 186-199 (modal2refPtVal) *)
Definition modal2refPtVal (b : basis) (oq qp : nat) (ms : list number) : res number :=
  for_ 0 (nMds (bEl b) (bO b)) (fun md s => v <- basVal b oq qp md ;; m <- rd ms md ;; Ok (nadd s (nmul v m))) (Some 0).

(** *** Initial values *)
(** an expression: coordinates and present quantities to the new quantities *)
Definition expr := list R -> list R -> list R.
(** DOFs: element, quantity, mode, fused simulation *)
Definition dofs := nat -> nat -> nat -> nat -> number.
Definition setDof (d : dofs) (el qt md cr : nat) (v : number) : dofs := fun e q m c => if ((e =? el) && (q =? qt) && (m =? md) && (c =? cr))%nat then v else d e q m c.

Variables (nQ nC : nat).
(** constants.hpp 149-154 (CE_N_QUAD_POINTS) *)
Definition nQps (el : refEl) (n : nat) : nat := match dim el with 1 => n | 2 => n * n | _ => n * n * n end%nat.
Definition crds (el : refEl) (q : qpt) : list R := let '(x, y, z, _) := q in firstn (dim el) [x; y; z].

(** mesh/common.hpp 78-90 (getElVeCrds), InitialDofs.hpp 90-115 (qps): the coordinates of all three dimensions, zero in the dimensions beyond the element's *)
Definition elCrds (el : refEl) (nV : nat) (elVe : nat -> nat -> nat) (ve : nat -> nat -> R) (e : nat) : list (list R) :=
  map (fun di => map (fun i => if (di <? dim el)%nat then ve (elVe e i) di else 0) (seq 0 nV)) (seq 0 3).

(** InitialDofs.hpp 172-251 (dg) *)
Definition initDg (b : basis) (first size nV : nat) (ex : list expr) (elVe : nat -> nat -> nat) (ve : nat -> nat -> R) (d : dofs) : res dofs :=
  let el := bEl b in let o := bO b in
  for_ first (first + size) (fun e d =>
    qs <- getQpts el (o + 1) (elCrds el nV elVe ve e) ;;
    _ <- check (length qs =? nQps el (o + 1))%nat ;;
    (* solution at the quadrature points: [quadrature point][simulation][quantity] *)
    q0 <- mapM (fun q => mapM (fun cr => x <- rd ex cr ;; Ok (x (crds el q) (repeat 0 nQ))) (seq 0 nC)) qs ;;
    for_ 0 nC (fun cr d => for_ 0 nQ (fun qt d =>
      vals <- mapM (fun r => l <- rd r cr ;; rd l qt) q0 ;;
      ms <- qpts2modal b vals (o + 1) ;;
      for_ 0 (nMds el o) (fun md d => v <- rd ms md ;; Ok (setDof d e qt md cr v)) d) d) d) d.

(** error norms: quantity, simulation *)
Definition norms := nat -> nat -> number.
Definition setN (f : norms) (qt cr : nat) (v : number) : norms := fun q c => if ((q =? qt) && (c =? cr))%nat then v else f q c.
Definition nabs (a : number) : number := option_map Rabs a.
Definition nmax (a b : number) : number := nlift Rmax a b.
(** l_qE, L1, L2 squared, Linf *)
Record errSt := mkErr { eQ : list (list R); eL1 : norms; eL2 : norms; eInf : norms }.
(** the largest floating point number *)
Variable big : R.
(** InitialDofs.hpp 277-370 (err): the quantities of the expressions keep their values between the evaluations, initially they are invalid (138-140) *)
Definition err (b : basis) (first size nV : nat) (ex : list expr) (elVe : nat -> nat -> nat) (ve : nat -> nat -> R) (d : dofs) : res errSt :=
  let el := bEl b in let o := bO b in
  rq <- getQpts el (o + 1) (refVes el) ;;
  _ <- check (length rq =? nQps el (o + 1))%nat ;;
  for_ first (first + size) (fun e st =>
    qs <- getQpts el (o + 1) (elCrds el nV elVe ve e) ;;
    _ <- check (length qs =? nQps el (o + 1))%nat ;;
    (* reference solution: [quadrature point][simulation][quantity] *)
    '(qE, qR) <- for_ 0 (length qs) (fun i s =>
      q <- rd qs i ;;
      qE <- for_ 0 nC (fun cr qE => x <- rd ex cr ;; v <- rd qE cr ;; wr qE cr (x (crds el q) v)) (fst s) ;;
      Ok (qE, snd s ++ [qE])) (eQ st, []) ;;
    for_ 0 nC (fun cr st => for_ 0 nQ (fun qt st =>
      let ms := map (fun md => d e qt md cr) (seq 0 (nMds el o)) in
      for_ 0 (length qs) (fun i st =>
        q <- rd qs i ;; n <- modal2refPtVal b (o + 1) i ms ;;
        l <- rd qR i ;; l <- rd l cr ;; r <- rd l qt ;;
        let df := nabs (nadd n (Some (- r))) in
        Ok (mkErr (eQ st) (setN (eL1 st) qt cr (nadd (eL1 st qt cr) (nmul df (Some (qW q))))) (setN (eL2 st) qt cr (nadd (eL2 st qt cr) (nmul (nmul df df) (Some (qW q)))))
             (setN (eInf st) qt cr (nmax (eInf st qt cr) df)))) st) st) (mkErr qE (eL1 st) (eL2 st) (eInf st)))
    (mkErr (repeat (repeat big nQ) nC) (fun _ _ => Some 0) (fun _ _ => Some 0) (fun _ _ => Some 0)).
End Points.
