(** Set-up of the advection equation: flux solvers, star matrices and time steps (src/impl/advection/solvers/common.hpp, AderDg.hpp).
    Simplifications: exact real arithmetic; ids of missing elements and faces (numeric_limits::max()) are [None]; the coordinates of an element's vertices are given per
    element, [dimension][vertex], as the code collects them from elVe and veChars (common.hpp 260-275, mesh::common::getElVeCrds); the asserts are checks. *)
From Coq Require Import List Arith Bool NArith Reals.
From Verif Require Import Util BasisSpec EdgePreM Sparse Qpts.
Import ListNotations.
Local Open Scope R_scope.

(** advection speeds a, b, c (src/impl/advection/setups and t_bgPars); the trailing ones are not used below three dimensions *)
Definition spd := (R * R * R)%type.
(** face characteristics: outNormal, area and sparse type *)
Record aChar := { aN : R * R * R; aArea : R; aSp : N }.
(** i_nElsIn, (i_recvEl, i_recvFa), i_faEl, i_elFa, coordinates of the elements' vertices, i_faChars, i_bgPars, i_bgParsRe *)
Record advIn := { vIn : nat; vRecv : list (nat * nat); vFaEl : list (option nat * option nat); vElFa : list (list nat); vCrd : list (list (list R)); vCh : list aChar;
  vBg : list spd; vBgRe : list spd }.

(** common.hpp 193-201: speed times normal *)
Definition dotN (d : nat) (v n : R * R * R) : R :=
  let '(a, b, c) := v in let '(n0, n1, n2) := n in
  match d with 1%nat => a * n0 | 2%nat => a * n0 + b * n1 | _ => a * n0 + b * n1 + c * n2 end.

(** Matrix.h 108-123 (det); common.hpp 285-287 for one dimension *)
Definition detOf (d : nat) (j : list (list R)) : R := match d with 1%nat => crd j 0 0 | 2%nat => det2 j | _ => det3 j end.

Section Setup.
(** element type, convergence rate, mask PERIODIC, TOL.LINALG *)
Variables (el : refEl) (ord : nat) (per : N) (tol : R) (I : advIn).
(** numeric_limits<TL_T_REAL>::max() *)
Variable big : R.
Local Notation d := (dim el).

Definition isSome {X} (o : option X) : bool := match o with Some _ => true | None => false end.
(** common.hpp 171-186: position of face [fa] in an element's faces, which has to be found once at most *)
Definition findF (fa : nat) (e : option nat) : res (option nat) :=
  match e with
  | None => Ok None
  | Some e => fas <- rd (vElFa I) e;; for_ 0 (nFas el) (fun fi o => x <- rd fas fi;; if (x =? fa)%nat then _ <- check (negb (isSome o));; Ok (Some fi) else Ok o) None
  end.
(** common.hpp 205-216: normal speed behind face [fi] of element [e], which belongs to another partition *)
Fixpoint recvN (e : nat) (fi : option nat) (n : R * R * R) (l : list (nat * nat)) (co : nat) : res R :=
  match l with
  | [] => Ok big
  | (re, rf) :: l => if (re =? e)%nat && (match fi with Some fi => (rf =? fi)%nat | None => false end) then v <- rd (vBgRe I) co;; Ok (dotN d v n) else recvN e fi n l (S co)
  end.

Definition arr := list (list R).
Definition put (o : arr) (e i : nat) (x : R) : res arr := row <- rd o e;; row <- wr row i x;; wr o e row.
(** common.hpp 310-329: one entry over the determinant, times the area, times two for tetrahedra *)
Definition rescale (area det : R) (o : arr) (e i : nat) : res arr :=
  row <- rd o e;; x <- rd row i;; let x := x / det * area in put o e i (match el with Tet => x * 2 | _ => x end).
(** common.hpp 277-304: determinant of the element's Jacobian *)
Definition detEl (e : nat) : res R :=
  v <- rd (vCrd I) e;; j <- jac el v;; let x := detOf d j in
  Ok (match el with Tet => if (ord =? 1)%nat then x / 6 else x | _ => x end).

(** common.hpp 162-330: one face; the four entries are scaled one after another *)
Definition solveFace (fa : nat) (o : arr) : res arr :=
  p <- rd (vFaEl I) fa;; ch <- rd (vCh I) fa;;
  let eL := fst p in let eR := snd p in
  fL <- findF fa eL;; fR <- findF fa eR;;
  advL <- match eL with Some l => v <- rd (vBg I) l;; Ok (dotN d v (aN ch)) | None => Ok big end;;
  advR <- match eR with
          | Some r => v <- rd (vBg I) r;; Ok (dotN d v (aN ch))
          | None => match eL with Some l => if (vIn I <=? l)%nat then recvN l fL (aN ch) (vRecv I) 0 else Ok big | None => Ok big end
          end;;
  let pe := has (aSp ch) per in
  _ <- check (negb (isSome eL) || isSome fL || pe);; _ <- check (negb (isSome eR) || isSome fR || pe);;
  let exL := isSome fL in
  let exR := exL && isSome fR in
  let l := match eL with Some l => l | None => 0%nat end in
  let r := match eR with Some r => r | None => 0%nat end in
  let iL := match fL with Some i => i | None => 0%nat end in
  let iR := match fR with Some i => i | None => 0%nat end in
  let nL := (iL + nFas el)%nat in
  let nR := (iR + nFas el)%nat in
  o <- (if rlt 0 advL then o <- (if exL then put o l iL (- advL) else Ok o);; (if exR then put o r nR advL else Ok o) else Ok o);;
  o <- (if rlt advR 0 then o <- (if exL then put o l nL (- advR) else Ok o);; (if exR then put o r iR advR else Ok o) else Ok o);;
  dL <- (if exL then detEl l else Ok big);; dR <- (if exR then detEl r else Ok big);;
  _ <- check (negb exL || rlt 0 dL);; _ <- check (negb exR || rlt 0 dR);; _ <- check (rlt 0 (aArea ch));;
  o <- (if exL then rescale (aArea ch) dL o l iL else Ok o);;
  o <- (if exR then rescale (aArea ch) dR o r iR else Ok o);;
  o <- (if exL then rescale (aArea ch) dL o l nL else Ok o);;
  (if exR then rescale (aArea ch) dR o r nR else Ok o).

(** common.hpp 137-331 (setupSolvers) *)
Definition setupSolvers (nEls nFa : nat) : res arr := for_ 0 nFa solveFace (repeat (repeat 0 (nFas el * 2)) nEls).

(** Matrix.h 188-204 (inv, 2x2) *)
Definition inv2 (m : list (list R)) : res (list (list R)) :=
  let t := det2 m in _ <- check (rlt tol (Rabs t));;
  Ok [[crd m 1 1 / t; - crd m 0 1 / t]; [- crd m 1 0 / t; crd m 0 0 / t]].
(** Matrix.h 212-237 (inv, 3x3) *)
Definition inv3 (m : list (list R)) : res (list (list R)) :=
  let t := det3 m in _ <- check (rlt tol (Rabs t));;
  let c (a b x y : nat * nat) := (crd m (fst a) (snd a) * crd m (fst b) (snd b) - crd m (fst x) (snd x) * crd m (fst y) (snd y)) / t in
  Ok [[c (1, 1)%nat (2, 2)%nat (1, 2)%nat (2, 1)%nat; c (0, 2)%nat (2, 1)%nat (0, 1)%nat (2, 2)%nat; c (0, 1)%nat (1, 2)%nat (0, 2)%nat (1, 1)%nat];
      [c (1, 2)%nat (2, 0)%nat (1, 0)%nat (2, 2)%nat; c (0, 0)%nat (2, 2)%nat (0, 2)%nat (2, 0)%nat; c (0, 2)%nat (1, 0)%nat (0, 0)%nat (1, 2)%nat];
      [c (1, 0)%nat (2, 1)%nat (1, 1)%nat (2, 0)%nat; c (0, 1)%nat (2, 0)%nat (0, 0)%nat (2, 1)%nat; c (0, 0)%nat (1, 1)%nat (0, 1)%nat (1, 0)%nat]].
(** AderDg.hpp 158-164 *)
Definition invOf (m : list (list R)) : res (list (list R)) := match d with 1%nat => Ok [[1 / crd m 0 0]] | 2%nat => inv2 m | _ => inv3 m end.
(** AderDg.hpp 166-177: the star matrix of one element *)
Definition starEl (v : list (list R)) (s : spd) : res (list R) :=
  j <- jac el v;; i <- invOf j;;
  let '(a, b, c) := s in
  Ok (map (fun dm => match d with 1%nat => a * crd i 0 dm | 2%nat => a * crd i 0 dm + b * crd i 1 dm | _ => a * crd i 0 dm + b * crd i 1 dm + c * crd i 2 dm end) (seq 0 d)).
(** AderDg.hpp 141-179 (setupStarM) *)
Definition setupStarM (nEls : nat) : res (list (list R)) := mapM (fun e => v <- rd (vCrd I) e;; s <- rd (vBg I) e;; starEl v s) (seq 0 nEls).

(** common.hpp 47-74 (computeTimeStep); a division by zero gives no number *)
Definition timeStep (inDia : R) (s : spd) (cfl : R) : R :=
  let '(a, b, c) := s in
  let la := match d with 1%nat => Rabs a | 2%nat => sqrt (a * a + b * b) | _ => sqrt (a * a + b * b + c * c) end in
  inDia / la * cfl / (2 * INR ord - 1).
(** common.hpp 87-112 (getTimeStepStatistics): minimum, average and maximum *)
Definition stepStats (cfl : R) (els : list (R * spd)) : R * R * R :=
  let '(mi, su, ma) := fold_left (fun st e => let t := timeStep (fst e) (snd e) cfl in let '(mi, su, ma) := st in (Rmin mi t, su + t, Rmax ma t)) els (big, 0, 0) in
  (mi, su / INR (length els), ma).
End Setup.
