(** The local Lax-Friedrichs solver of the sub-cells and its boundary conditions: src/impl/seismic/sc/Llf.hpp, src/impl/seismic/sc/Boundary.hpp.

    Real numbers instead of floating point. The loops over the fused simulations are not modelled: one simulation (they do not interact). States of sub-cells are lists [sub-cell][quantity]
    instead of [quantity][sub-cell]. Matrices are row-major lists. [d]: dimensions, [nf]: faces of an element (TL_N_FAS), [nt]: sub-face types (TL_N_TYSF), [nsf]: sub-faces of a face (TL_N_SFS), [nsc]: sub-cells
    (TL_N_SCS). Vectors have three entries, the last one is not used in two dimensions. *)
From Coq Require Import List Arith Bool Reals.
From Verif Require Import Util MatMul ElGen Elastic ElSpec.
Import ListNotations.
Open Scope R_scope.

(** Llf.hpp 170-186 (TL_N_QTS) *)
Definition nQts (d : nat) : nat := if (d =? 2)%nat then 5%nat else 9%nat.
(** normal, tangents, area *)
Record face := { fN : R * R * R; fS : R * R * R; fT : R * R * R; fAr : R }.

(** Llf.hpp 70-102 *)
Definition centralL2 (m : material) (nx ny : R) : res (list R) :=
  let t := trafo2 0 1 Rplus Rminus Rmult Ropp nx ny in
  let tm1 := trafoInv2 0 1 Rplus Rminus Rmult Ropp nx ny in
  a <- rd (getJac2 0 1 Rplus Rminus Rmult Rdiv Ropp (rho m) (lam m) (mu m)) 0;;
  tmp <- matMulB0 Rplus Rmult 0 5 5 5 t a (repeat 0 25);;
  c <- matMulB0 Rplus Rmult 0 5 5 5 tmp tm1 (repeat 0 25);;
  Ok (map (fun x => x * - (1 / 2)) c).
(** Llf.hpp 122-157 *)
Definition centralL3 (m : material) (n s t : R * R * R) : res (list R) :=
  let '(nx, ny, nz) := n in let '(sx, sy, sz) := s in let '(tx, ty, tz) := t in
  let tr := trafo3 0 1 Rplus Rmult nx ny nz sx sy sz tx ty tz in
  let tm1 := trafoInv3 0 1 Rplus Rminus Rmult Rdiv Ropp nx ny nz sx sy sz tx ty tz in
  a <- rd (getJac3 0 1 Rplus Rminus Rmult Rdiv Ropp (rho m) (lam m) (mu m)) 0;;
  tmp <- matMulB0 Rplus Rmult 0 9 9 9 tr a (repeat 0 81);;
  c <- matMulB0 Rplus Rmult 0 9 9 9 tmp tm1 (repeat 0 81);;
  Ok (map (fun x => x * - (1 / 2)) c).
Definition centralL (d : nat) (m : material) (f : face) : res (list R) :=
  if (d =? 2)%nat then centralL2 m (fst (fst (fN f))) (snd (fst (fN f))) else centralL3 m (fN f) (fS f) (fT f).

(** Llf.hpp 211-228: side (left?), ids of the solvers of the sub-cell and the adjacent one *)
Definition llfIds (nf nt ty : nat) : bool * nat * nat :=
  let dgs := (ty <? 2 * nf)%nat in
  let id0 := if dgs then (ty mod nf)%nat else ((ty - 2 * nf) mod nt)%nat in
  let id1 := (id0 + (if dgs then nt else 0))%nat in
  (if dgs then (ty <? nf)%nat else (ty - 2 * nf <? nt)%nat, id0, id1).

(** ** Set-up of one element (Llf.hpp 290-423) *)
Section Init.
(** [el]: dense id; [elFaEl]: adjacent elements, None at a boundary; [faces]: normals, tangents, areas of the element's faces; [adds]: those of the additional sub-faces (linalg::Geom::sfAdd is not modelled) *)
Variables (d nf nt nsf nsc : nat) (el : nat) (elFaEl : list (option nat)) (faces adds : list face) (mats : list material) (vol : R).
(** 311-315, 361-365 *)
Definition adjOf (ty : nat) : res nat := a <- rd elFaEl ty;; Ok (match a with None => el | Some a => a end).
(** 308-352 *)
Definition frameOf (ty : nat) : res face :=
  if (ty <? nf)%nat then
    ad <- adjOf ty;;
    f <- rd faces ty;;
    let '(nx, ny, nz) := fN f in
    Ok {| fN := if (ad <? el)%nat then (nx * - (1), ny * - (1), nz * - (1)) else (nx, ny, nz); fS := fS f; fT := fT f; fAr := fAr f |}
  else rd adds (ty - nf).
(** common.hpp 48-56, as in Elastic *)
Definition velPOf (m : material) : R := getVelP 1 Rplus Rmult Rdiv sqrt (rho m) (lam m) (mu m).
(** 355-395; memory of the solvers and viscosities *)
Definition unscaled (fs : list face) (mem : list (list R) * list R) : res (list (list R) * list R) :=
  m <- rd mats el;;
  for_ 0 nt (fun ty mem =>
    f <- rd fs ty;;
    '(cen, vis) <- (if (ty <? nf)%nat then
        ad <- adjOf ty;;
        ma <- rd mats ad;;
        c <- centralL d ma f;;
        cen <- wr (fst mem) (nt + ty) c;;
        vis <- wr (snd mem) (nt + ty) (- (1 / 2) * Rmax (velPOf m) (velPOf ma));;
        Ok (cen, vis)
      else Ok mem);;
    c <- centralL d m f;;
    cen <- wr cen ty c;;
    vis <- wr vis ty (- (1 / 2) * velPOf m);;
    Ok (cen, vis)) mem.
(** one entry of the solvers and viscosities times l_sca *)
Definition scaleAt (i : nat) (sca : R) (mem : list (list R) * list R) : res (list (list R) * list R) :=
  v <- rd (snd mem) i;; c <- rd (fst mem) i;;
  vis <- wr (snd mem) i (v * sca);;
  cen <- wr (fst mem) i (map (fun x => x * sca) c);;
  Ok (cen, vis).
(** 398-421 *)
Definition scaled (fs : list face) (mem : list (list R) * list R) : res (list (list R) * list R) :=
  for_ 0 nt (fun ty mem =>
    f <- rd fs ty;;
    let sca := fAr f / INR nsf * (INR nsc / vol) in
    mem <- scaleAt ty sca mem;;
    if (ty <? nf)%nat then scaleAt (nt + ty) sca mem else Ok mem) mem.
Definition init (mem : list (list R) * list R) : res (list (list R) * list R) :=
  fs <- for_ 0 nt (fun ty fs => f <- frameOf ty;; Ok (fs ++ [f])) [];;
  mem <- unscaled fs mem;;
  scaled fs mem.
End Init.

(** ** Time step of one element's sub-cells (Llf.hpp 451-523) *)
Section Step.
Variables (d nf nt : nat) (cen : list (list R)) (vis : list R) (dt : R).
(** 487-517: contribution of a sub-face: [q]: sub-cell, [qa]: adjacent sub-cell, [o]: output *)
Definition addFlux (c0 c1 : list R) (v sca : R) (q qa : list R) (o : list R) : res (list R) :=
  for_ 0 (nQts d) (fun q1 o =>
    x <- rd o q1;; y <- rd q q1;; z <- rd qa q1;;
    let x := x + y * v * dt - z * v * dt in
    x <- for_ 0 (nQts d) (fun q2 x =>
      y <- rd q q2;; z <- rd qa q2;; a <- rd c0 (q1 * nQts d + q2);; b <- rd c1 (q1 * nQts d + q2);;
      Ok (x + y * a * sca + z * b * sca)) x;;
    wr o q1 x) o.
(** 519-523: net-updates *)
Definition addNet (qa : list R) (o : list R) : res (list R) :=
  for_ 0 (nQts d) (fun q1 o => x <- rd o q1;; z <- rd qa q1;; wr o q1 (x + z)) o.
Variables (scSfSc scTySf : list (list nat)) (netUp : list bool).
(** 464-525: one sub-cell *)
Definition subCell (dofs : list (list R)) (sc : nat) : res (list R) :=
  q <- rd dofs sc;;
  ads <- rd scSfSc sc;; tys <- rd scTySf sc;;
  for_ 0 nf (fun fa o =>
    ad <- rd ads fa;; ty <- rd tys fa;;
    qa <- rd dofs ad;;
    flux <- (if (nf - 1 <? ty)%nat then Ok true else nu <- rd netUp (ty mod nf);; Ok (negb nu));;
    if flux then
      let '(lft, id0, id1) := llfIds nf nt ty in
      c0 <- rd cen id0;; c1 <- rd cen id1;; v <- rd vis (Nat.max id0 id1);;
      addFlux c0 c1 v (if lft then dt else - dt) q qa o
    else addNet qa o) q.
(** 462-527; [nsc]: number of sub-cells, [out]: memory of the output *)
Definition tsSc (nsc : nat) (dofs out : list (list R)) : res (list (list R)) :=
  for_ 0 nsc (fun sc out => o <- subCell dofs sc;; wr out sc o) out.

(** 543-582: net-updates of the sub-faces of face [fa]; [dofs]: states of the element's and the adjacent element's sub-cells at the face *)
Definition nuFaSf (nsf fa : nat) (dofs0 dofs1 ups : list (list R)) : res (list (list R)) :=
  for_ 0 nsf (fun sf ups =>
    q <- rd dofs0 sf;; qa <- rd dofs1 sf;;
    c0 <- rd cen fa;; c1 <- rd cen (nt + fa);; v <- rd vis (nt + fa);;
    (* = instead of += in the first assignment *)
    o <- addFlux c0 c1 v dt q qa (repeat 0 (nQts d));;
    wr ups sf o) ups.
End Step.

(** ** Boundary.hpp 80-103 *)
Inductive bnd := Inner | FreeSurface | Outflow.
Definition applyBnd (d nf nsf nsc : nat) (scSfSc : list (list nat)) (types : list bnd) (dofs : list (list R)) : res (list (list R)) :=
  for_ 0 nf (fun fa dofs =>
    t <- rd types fa;;
    match t with
    | Inner => Ok dofs
    | FreeSurface => for_ 0 nsf (fun sf dofs => ads <- rd scSfSc (nsc + nsf * fa + sf);; sc <- rd ads 0;; q <- rd dofs sc;; wr dofs (nsc + nsf * fa + sf) q) dofs
    | Outflow => for_ 0 nsf (fun sf dofs => wr dofs (nsc + nsf * fa + sf) (repeat 0 (nQts d))) dofs
    end) dofs.
