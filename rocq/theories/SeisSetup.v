(** Material parameters and time steps of seismic simulations: src/impl/seismic/setup.inc, src/impl/seismic/common.hpp, src/main.cpp, src/mesh/EdgeV.cpp; search for the fundamental time step in
    tools/edge_v/src/main.cpp.

    Scalars of the solver are real numbers, those of the preprocessor rational ones (as in Groups); rounding is not modelled. *)
From Coq Require Import List Arith Bool Reals QArith Qreals.
From Verif Require Import Util Groups TimeGroup Visc.
Import ListNotations.
Open Scope R_scope.

Definition posR (a : R) : bool := if Rlt_dec 0 a then true else false.

(** ** Material parameters (setup.inc) *)

(** t_bgPars: density, Lame parameters, quality factors *)
Record par := { pRho : R; pLam : R; pMu : R; pQp : R; pQs : R }.

(** setup.inc 110-121: parameters of an element, for which the mesh has velocities and density *)
Definition meshPar (vp vs rho : R) : res par :=
  _ <- check (posR rho);;
  let mu := vs * vs * rho in
  _ <- check (posR mu);;
  let lam := vp * vp * rho - 2 * mu in
  _ <- check (posR lam);;
  Ok {| pRho := rho; pLam := lam; pMu := mu; pQp := 2 / 10 * vs; pQs := 1 / 10 * vs |}.
(** setup.inc 85-127; [ps]: memory of the parameters. Result: did the mesh have a velocity model?, parameters *)
Definition fromMesh (nEls : nat) (vps vss rhos : list R) (ps : list par) : res (bool * list par) :=
  if ((length vps =? nEls) && (length vss =? nEls) && (length rhos =? nEls))%nat then
    ps <- for_ 0 nEls (fun el ps => vp <- rd vps el;; vs <- rd vss el;; rho <- rd rhos el;; p <- meshPar vp vs rho;; wr ps el p) ps;;
    Ok (true, ps)
  else Ok (false, ps).

(** setup.inc 206-215: mean of the vertices of an element in dimension [dm]; [elVe]: vertices of the element *)
Definition aveDim (crds : list (list R)) (elVe : list nat) (dm : nat) : res R :=
  s <- for_ 0 (length elVe) (fun ve s => v <- rd elVe ve;; c <- rd crds v;; x <- rd c dm;; Ok (s + x)) 0;;
  Ok (s / INR (length elVe)).
(** a domain of the velocity model: Domain::inside (src/linalg/Domain.hpp, property C48), values *)
Notation dom := ((list R -> bool) * list R)%type.
(** setup.inc 221-243: [vm]: velocity model of the mesh available; [nm]: number of mechanisms; [big]: largest floating point number; [p]: parameters before *)
Fixpoint findDom (vm : bool) (nm : nat) (big : R) (doms : list dom) (ave : list R) (p : par) : res par :=
  match doms with
  | [] => Ok p
  | (inside, vals) :: ds =>
    if inside ave then
      rho <- rd vals 0;; lam <- rd vals 1;; mu <- rd vals 2;;
      if (0 <? nm)%nat then qp <- rd vals 3;; qs <- rd vals 4;; Ok {| pRho := rho; pLam := lam; pMu := mu; pQp := qp; pQs := qs |}
      else Ok {| pRho := rho; pLam := lam; pMu := mu; pQp := big; pQs := big |}
    else
      _ <- check (vm || negb (length ds =? 0)%nat);;
      findDom vm nm big ds ave p
  end.
(** setup.inc 203-245; [elVe]: vertices of every element *)
Definition setPars (vm : bool) (nm : nat) (big : R) (nDim : nat) (doms : list dom) (crds : list (list R)) (elVe : list (list nat)) (ps : list par) : res (list par) :=
  for_ 0 (length elVe) (fun el ps =>
    ves <- rd elVe el;;
    ave <- for_ 0 nDim (fun dm a => x <- aveDim crds ves dm;; Ok (a ++ [x])) [];;
    _ <- check (vm || (0 <? length doms)%nat);;
    p <- rd ps el;;
    p <- findDom vm nm big doms ave p;;
    wr ps el p) ps.

(** ** Time steps (common.hpp) *)

(** common.hpp 48-56, 66-73. Roots of non-positive numbers (an assertion, or NaNs) are errors. *)
Definition velP (p : par) : res R :=
  x <- quo (pLam p + 2 * pMu p) (pRho p);;
  if posR x then Ok (sqrt x) else Er Eub.
Definition velS (p : par) : res R :=
  x <- quo (pMu p) (pRho p);;
  if posR x then Ok (sqrt x) else Er Eub.
(** common.hpp 84-97; SCALE_CFL is 1/2 (const.inc 135-137) *)
Definition cflStep (ord : nat) (dia : R) (p : par) : res R :=
  v <- velP p;;
  let dt := dia * (1 / 2) / v / (2 * INR ord - 1) in
  if posR dt then Ok dt else Er Eub.
(** common.hpp 109-133: minimum, average, maximum. [els]: diameters and parameters *)
Definition cflStats (big : R) (ord : nat) (els : list (R * par)) : res (R * R * R) :=
  fold_left (fun st e => '(mi, av, ma) <- st;; dt <- cflStep ord (fst e) (snd e);; Ok (Rmin mi dt, av + dt / INR (length els), Rmax ma dt)) els (Ok (big, 0, 0)).
(** src/main.cpp 275-285: minimum of all ranks *)
Definition globalMin (big : R) (ord : nat) (ranks : list (list (R * par))) : res R :=
  fold_left (fun m r => m <- m;; '(mi, _, _) <- cflStats big ord r;; Ok (Rmin m mi)) ranks (Ok big).
(** EdgeV.cpp 227-241: relative time steps of the groups; [file]: relative_time_steps, [None] is the largest number *)
Definition relDts (nTgs : nat) (file : list (option Q)) : res (list (option Q)) :=
  if (1 <? nTgs)%nat then
    _ <- for_ 0 (nTgs - 1) (fun tg _ =>
      a <- rd file tg;; b <- rd file (tg + 1);;
      match a, b with
      | Some a, Some b => check (negb (Qle_bool (1 # 100000) (b / a - 2)) && negb (Qle_bool (b / a - 2) (- (1 # 100000))))
      | _, _ => Er Echeck
      end) tt;;
    Ok file
  else Ok [Some 1%Q; None].
(** src/main.cpp 307, TimeGroupStatic.cpp 47-55, 72: full time step of a group *)
Definition groupStep (nTgs : nat) (file : list (option Q)) (gmin : R) (tg : nat) : res R :=
  rel <- relDts nTgs file;;
  r0 <- rd rel 0;;
  match r0 with
  | Some r0 => Ok (Q2R r0 * gmin * INR (dbl tg))
  | None => Er Eub
  end.

(** AderDg.hpp 270-283: with attenuation, the Lame parameters of all elements are replaced before the time steps are derived (setup.inc 265-290, 327-331) *)
Definition withAtt (solve : nat -> nat -> list R -> list R -> list R) (d nm : nat) (freqCen freqRat : R) (els : list (R * par)) : res (list (R * par)) :=
  if (0 <? nm)%nat then
    '(bg, _) <- initSrcA solve d nm freqCen freqRat (map (fun e => {| bLam := pLam (snd e); bMu := pMu (snd e); bQp := pQp (snd e); bQs := pQs (snd e) |}) els);;
    Ok (map (fun eb => (fst (fst eb), {| pRho := pRho (snd (fst eb)); pLam := bLam (snd eb); pMu := bMu (snd eb); pQp := bQp (snd eb); pQs := bQs (snd eb) |})) (combine els bg))
  else Ok els.

(** ** Search for the fundamental time step (tools/edge_v/src/main.cpp 298-325) *)
Open Scope Q_scope.
(** Groups::getSpeedUp (Groups.h 219) of a construction with fundamental time step [dt] *)
Definition speedUp (construct : Q -> res groups) (dt : Q) : res Q :=
  g <- construct dt;;
  gts <- rd (gLoads g) 0;; after <- rd (gLoads g) 2;;
  if Qeq_bool after 0 then Er Eub else Ok (gts / after).
(** the loop; [best], [su]: l_funDt, l_speedUp *)
Fixpoint searchDt (fuel : nat) (construct : Q -> res groups) (dt best su : Q) : res Q :=
  if Qle_bool dt (1 # 2) then Ok best else
  match fuel with
  | O => Er Efuel
  | S fuel =>
    s <- speedUp construct dt;;
    if Qle_bool s su then searchDt fuel construct (dt - (1 # 100)) best su
    else searchDt fuel construct (dt - (1 # 100)) dt s
  end.
(** [cfg]: value of the configuration *)
Definition funDt (construct : Q -> res groups) (cfg : Q) : res Q :=
  if Qeq_bool cfg 0 then searchDt 100 construct 1 0 0 else Ok cfg.
