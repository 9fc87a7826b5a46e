(** EDGE-V: velocity models given by expressions and grids, mesh refinement, bathymetry (tools/edge_v/src/{models, mesh/Refinement.cpp, io/Grid.cpp, main.cpp}).

    Scalars are real numbers; rounding (float, double) is not modelled.  A compiled ExprTk expression is an arbitrary function of the registered variables ([expr]): local
    variables of an expression are initialized in every evaluation, the registered ones keep their values from one evaluation to the next. *)
From Coq Require Import List Arith Bool Reals.
From Verif Require Import Util.
Import ListNotations.
Open Scope R_scope.

Definition pos (a : R) : bool := if Rlt_dec 0 a then true else false.
Definition ltR (a b : R) : bool := if Rlt_dec a b then true else false.
Notation pt := (R * R * R)%type.

Section Expr.
Context {E O : Type}.
(** [load i]: the variables are set for iteration i; [out]: results *)
Variables (load : nat -> E -> res E) (expr : E -> E) (out : E -> res O).
(** a thread with variables [e], which works on the iterations [is]: loops of Refinement.cpp 82-110, GridExpression.cpp 80-89, Expression.cpp 83-98 *)
Fixpoint thread (e : E) (is : list nat) (acc : list O) : res (list O) :=
  match is with
  | [] => Ok acc
  | i :: is => e <- load i e;; let e := expr e in o <- out e;; acc <- wr acc i o;; thread e is acc
  end.
(** "omp parallel" with the thread's variables, initially [e0], and "omp for": [ts] has the iterations of every thread. Simplification: one thread after the other; they write
    different entries of the result. *)
Fixpoint threads (e0 : E) (ts : list (list nat)) (acc : list O) : res (list O) :=
  match ts with
  | [] => Ok acc
  | t :: ts => acc <- thread e0 t acc;; threads e0 ts acc
  end.
End Expr.

(** ** Refinement (mesh/Refinement.cpp 36-133) *)

(** variables of the expression: x, y, z, maximum_wave_speed_ratio, edges_per_wave_length, frequency *)
Record refEnv := { rX : R; rY : R; rZ : R; rRatio : R; rEpw : R; rFreq : R }.

Section Refinement.
(** largest double and float; [junk]: uninitialized memory *)
Variables (bigD bigF junk : R).
Variables (nVes nEls nElVes : nat) (elVe : list nat) (veCrds : list pt) (minSpeed : list R).

(** 85-100. A minimum speed of zero, for which the code goes on with infinity or NaN, is an error. *)
Definition loadRef (el : nat) (e : refEnv) : res refEnv :=
  '(x, y, z, mn, mx) <- for_ 0 nElVes (fun ve s => let '(x, y, z, mn, mx) := s in
     v <- rd elVe (el * nElVes + ve);;
     '(px, py, pz) <- rd veCrds v;;
     w <- rd minSpeed v;;
     Ok (x + px / INR nElVes, y + py / INR nElVes, z + pz / INR nElVes, Rmin mn w, Rmax mx w)) (0, 0, 0, bigD, - bigD);;
  if Req_EM_T mn 0 then Er Eub else
  Ok {| rX := x; rY := y; rZ := z; rRatio := mx / mn; rEpw := rEpw e; rFreq := rFreq e |}.
(** 104-109 *)
Definition outRef (e : refEnv) : res R :=
  _ <- check (pos (rFreq e));;
  _ <- check (pos (rEpw e));;
  Ok (1 / (rFreq e * rEpw e)).
(** 117-132 *)
Definition propagate (refEl : list R) : res (list R * list R) :=
  for_ 0 nEls (fun el s => let '(refVe, refEl) := s in
    r <- rd refEl el;;
    '(ave, refVe) <- for_ 0 nElVes (fun ve s => let '(ave, refVe) := s in
       v <- rd elVe (el * nElVes + ve);;
       w <- rd minSpeed v;;
       old <- rd refVe v;;
       refVe <- wr refVe v (Rmin old (w * r));;
       Ok (ave + w, refVe)) (0, refVe);;
    refEl <- wr refEl el (r * (ave / INR nElVes));;
    Ok (refVe, refEl)) (repeat bigF nVes, refEl).
(** result: target lengths of the vertices and elements *)
Definition refInit (expr : refEnv -> refEnv) (ts : list (list nat)) : res (list R * list R) :=
  refEl <- threads loadRef expr outRef {| rX := bigD; rY := bigD; rZ := bigD; rRatio := bigD; rEpw := bigD; rFreq := bigD |} ts (repeat junk nEls);;
  propagate refEl.
End Refinement.

(** ** Grids (io/Grid.cpp 38-86) *)

(** std::lower_bound for a sorted array: position of the first entry which is not smaller *)
Fixpoint lowerBound (l : list R) (p : R) : nat :=
  match l with
  | [] => O
  | x :: l => if ltR x p then S (lowerBound l p) else O
  end.
(** [x], [y], [z]: contents of the file. A remainder of a division by zero is undefined. *)
Definition gridInit (x y z : list R) (pts : list pt) : res (list R) :=
  _ <- check (0 <? length z)%nat;;
  if ((length x =? 0) || (length y =? 0))%nat then Er Eub else
  _ <- check (length z mod length x =? 0)%nat;;
  _ <- check (length z mod length y =? 0)%nat;;
  for_ 0 (length pts) (fun i data =>
    '(px, py, _) <- rd pts i;;
    let id0 := lowerBound y py in
    let id1 := lowerBound x px in
    let id := (id0 * length x + id1)%nat in
    x0 <- rd x 0;;
    _ <- check (ltR x0 px);;
    y0 <- rd y 0;;
    _ <- check (ltR y0 py);;
    _ <- check (id1 <? length x)%nat;;
    _ <- check (id0 <? length y)%nat;;
    v <- rd z id;;
    wr data i v) (repeat 0 (length pts)).

(** ** GridExpression (models/GridExpression.cpp 42-91): x, y, z, data, min_speed, max_speed *)
Record gridEnv := { gX : R; gY : R; gZ : R; gData : R; gMin : R; gMax : R }.
Definition loadGrid (pts : list pt) (data : list R) (i : nat) (e : gridEnv) : res gridEnv :=
  '(x, y, z) <- rd pts i;;
  d <- rd data i;;
  Ok {| gX := x; gY := y; gZ := z; gData := d; gMin := gMin e; gMax := gMax e |}.
Definition outGrid (e : gridEnv) : res (R * R) := Ok (gMin e, gMax e).
Definition gridExprInit (pts : list pt) (data : list R) (expr : gridEnv -> gridEnv) (ts : list (list nat)) : res (list (R * R)) :=
  threads (loadGrid pts data) expr outGrid {| gX := 0; gY := 0; gZ := 0; gData := 0; gMin := 0; gMax := 0 |} ts (repeat (0, 0) (length pts)).

(** main.cpp 209-223, 263-267: speeds of the tsunami model with which the time steps are computed. [ves], [cens]: vertices, centroids of the elements *)
Definition tsunamiSpeeds (x y z : list R) (ves cens : list pt) (expr : gridEnv -> gridEnv) (cenCfl : bool) (tsV tsC : list (list nat)) : res (list (R * R)) :=
  data <- gridInit x y z ves;;
  sp <- gridExprInit ves data expr tsV;;
  if cenCfl then gridExprInit cens data expr tsC else Ok sp.

(** ** Expression (models/seismic/Expression.cpp 35-99): x, y, z, vp, vs, qp, qs; one thread *)
Record seisEnv := { sX : R; sY : R; sZ : R; sVp : R; sVs : R; sQp : R; sQs : R }.
Definition loadSeis (pts : list pt) (i : nat) (e : seisEnv) : res seisEnv :=
  '(x, y, z) <- rd pts i;;
  Ok {| sX := x; sY := y; sZ := z; sVp := sVp e; sVs := sVs e; sQp := sQp e; sQs := sQs e |}.
Definition outSeis (e : seisEnv) : res (R * R * R * R) := Ok (sVp e, sVs e, sQp e, sQs e).
Definition seisInit (bigD : R) (pts : list pt) (expr : seisEnv -> seisEnv) : res (list (R * R * R * R)) :=
  thread (loadSeis pts) expr outSeis {| sX := bigD; sY := bigD; sZ := bigD; sVp := bigD; sVs := bigD; sQp := bigD; sQs := bigD |} (seq 0 (length pts)) (repeat (0, 0, 0, 0) (length pts)).

(** ** Averages (models/Model.cpp 25-41), bathymetry (main.cpp 476-490) *)
Definition elAve (nElVes nEls : nat) (elVe : list nat) (velVe : list R) : res (list R) :=
  for_ 0 nEls (fun el o =>
    s <- for_ 0 nElVes (fun ve s => v <- rd elVe (el * nElVes + ve);; w <- rd velVe v;; Ok (s + w)) 0;;
    wr o el (s / INR nElVes)) (repeat 0 nEls).
Definition dryTol (tol : R) (b : R) : R := if ltR tol b then Rmax b (- tol) else b.
Definition bathymetry (nElVes nEls : nat) (elVe : list nat) (data : list R) (tol : R) : res (list R) :=
  b <- elAve nElVes nEls elVe data;;
  Ok (map (dryTol tol) b).
