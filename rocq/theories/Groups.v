(** Time groups of the preprocessor: model of edge_v::time::Groups and edge_v::time::Cfl.

    Integers are [nat] (an unsigned short never overflows here: a time group only decreases); std::numeric_limits< t_idx >::max()
    as id of an element is [None].  Floating point numbers are exact rationals; std::numeric_limits< double >::max() as upper
    end of the last interval is [None] (infinity). *)
From Coq Require Import QArith Qminmax.
From Verif Require Import Util.
Open Scope nat_scope.

(** One face of an element in a sweep; [tgEl]: value of io_elTg[l_el] at the begin of the element.  State: time groups,
    l_normIt, l_normAll.  Models tools/edge_v/src/time/Groups.cpp:61-74. *)
Definition normFace (nElFas : nat) (elFaEl : list (option nat)) (el tgEl fa : nat) (s : list nat * nat * nat) : res (list nat * nat * nat) :=
  let '(tgs, it, all) := s in
  ad <- rd elFaEl (el * nElFas + fa) ;;
  match ad with
  | None => Ok s
  | Some ad => tgAd <- rd tgs ad ;;
               if tgAd + 1 <? tgEl then tgs <- wr tgs el (tgAd + 1) ;; Ok (tgs, it + 1, all + 1) else Ok s
  end.

(** One sweep over all elements.  Models tools/edge_v/src/time/Groups.cpp:56-75. *)
Definition normSweep (nElFas nEls : nat) (elFaEl : list (option nat)) (s : list nat * nat) : res (list nat * nat * nat) :=
  for_ 0 nEls (fun el s =>
    let '(tgs, it, all) := s in
    tgEl <- rd tgs el ;; for_ 0 nElFas (normFace nElFas elFaEl el tgEl) (tgs, it, all)) (fst s, 0, snd s).

(** The loop of sweeps; [fuel] bounds their number (exhaustion is an error).  Models
    tools/edge_v/src/time/Groups.cpp:55-80. *)
Fixpoint normLoop (fuel nElFas nEls : nat) (elFaEl : list (option nat)) (s : list nat * nat) : res (list nat * nat) :=
  match fuel with
  | 0 => Er Efuel
  | S fuel => '(tgs, it, all) <- normSweep nElFas nEls elFaEl s ;;
              if it =? 0 then Ok (tgs, all) else normLoop fuel nElFas nEls elFaEl (tgs, all)
  end.

(** Models tools/edge_v/src/time/Groups.cpp:47-81 (normalizeElTgs): time groups and the returned number. *)
Definition normalizeElTgs (fuel nElFas nEls : nat) (elFaEl : list (option nat)) (tgs : list nat) : res (list nat * nat) :=
  normLoop fuel nElFas nEls elFaEl (tgs, 0).

(** Is [t] less than the end [e] of an interval? *)
Definition ltEnd (t : Q) (e : option Q) : bool := match e with None => true | Some e => negb (Qle_bool e t) end.

(** First of [n] groups, beginning at [tg], whose end is larger than the time step.  Models
    tools/edge_v/src/time/Groups.cpp:93-98; [None]: no group, o_elTg is not written. *)
Fixpoint findGroup (tsGroups : list (option Q)) (ts : Q) (n tg : nat) : res (option nat) :=
  match n with
  | 0 => Ok None
  | S n => e <- rd tsGroups (tg + 1) ;; if ltEnd ts e then Ok (Some tg) else findGroup tsGroups ts n (S tg)
  end.

(** Models tools/edge_v/src/time/Groups.cpp:84-100 (setElTg); the elements are independent of each other (omp parallel for). *)
Definition setElTg (nEls nGroups : nat) (tsGroups : list (option Q)) (tsCfl : list Q) (elTg : list nat) : res (list nat) :=
  for_ 0 nEls (fun el elTg =>
    ts <- rd tsCfl el ;; o <- findGroup tsGroups ts nGroups 0 ;;
    match o with None => Ok elTg | Some tg => wr elTg el tg end) elTg.

(** Models tools/edge_v/src/time/Groups.cpp:102-114 (nGroupEls). *)
Definition nGroupEls (first nEls nGroups : nat) (elTg cnt : list nat) : res (list nat) :=
  cnt <- for_ 0 nGroups (fun tg cnt => wr cnt tg 0) cnt ;;
  for_ first (first + nEls) (fun el cnt => tg <- rd elTg el ;; c <- rd cnt tg ;; wr cnt tg (c + 1)) cnt.

(** Sums of 1/(time step); groups with an infinite start do not occur.  Models tools/edge_v/src/time/Groups.cpp:27-45
    (getLoads): o_gts, o_ltsGrouped, o_ltsPerElement. *)
Definition getLoads (nEls : nat) (tsCfl : list Q) (tsGroups : list (option Q)) (elTg : list nat) : res (Q * Q * Q) :=
  '(g, p) <- for_ 0 nEls (fun el (s : Q * Q) =>
     tg <- rd elTg el ;; dt <- rd tsGroups tg ;; ts <- rd tsCfl el ;;
     match dt with None => Er Echeck | Some dt => Ok (fst s + 1 / dt, snd s + 1 / ts)%Q end) (0, 0)%Q ;;
  Ok (inject_Z (Z.of_nat nEls), g, p).

(** result of the constructor: m_tsIntervals, m_elTg, m_nGroupEls, m_loads *)
Record groups := mkGroups { gIntervals : list (option Q); gElTg : list nat; gNEls : list nat; gLoads : list Q }.

(** The intervals; [rates] are applied from the smallest group on.  Models tools/edge_v/src/time/Groups.cpp:135-141. *)
Definition tsIntervals (rates : list Q) (funDt : Q) (garbage : list (option Q)) : res (list (option Q)) :=
  t <- wr garbage 0 (Some funDt) ;;
  t <- wr t (length rates + 1) None ;;
  for_ 0 (length rates) (fun ra t =>
    dt <- rd t ra ;; r <- rd rates ra ;;
    wr t (ra + 1) (match dt with None => None | Some dt => Some (dt * r)%Q end)) t.

(** Models tools/edge_v/src/time/Groups.cpp:117-182 (constructor).  [gI], [gT], [gN]: previous content of the allocated memory. *)
Definition mkTimeGroups (fuel nElFas nEls : nat) (elFaEl : list (option nat)) (rates : list Q) (funDt : Q) (ts : list Q)
    (gI : list (option Q)) (gT gN : list nat) : res groups :=
  _ <- for_ 0 (length rates) (fun ra _ => r <- rd rates ra ;; _ <- check (negb (Qle_bool r 1)) ;; check (Qle_bool r 2)) tt ;;
  _ <- check (negb (Qle_bool funDt 0)) ;; _ <- check (Qle_bool funDt 1) ;;
  int <- tsIntervals rates funDt gI ;;
  elTg <- setElTg nEls (length rates + 1) int ts gT ;;
  '(gts, before, per) <- getLoads nEls ts int elTg ;;
  '(elTg, _) <- normalizeElTgs fuel nElFas nEls elFaEl elTg ;;
  cnt <- nGroupEls 0 nEls (length rates + 1) elTg gN ;;
  '(_, after, _) <- getLoads nEls ts int elTg ;;
  Ok (mkGroups int elTg cnt [gts; before; after; per]).

(** * CFL time steps *)

(** Mean wave speed of an element.  Models tools/edge_v/src/time/Cfl.cpp:95-109; [speed]: io_velMod.getMaxSpeed. *)
Definition meanSpeed (nElVes : nat) (elVe : list nat) (velModEl : bool) (speed : nat -> Q) (el : nat) : res Q :=
  if velModEl then Ok (speed el)
  else s <- for_ 0 nElVes (fun ve (s : Q) => v <- rd elVe (el * nElVes + ve) ;; Ok (s + speed v)%Q) 0%Q ;;
       Ok (s / inject_Z (Z.of_nat nElVes))%Q.

(** Models tools/edge_v/src/time/Cfl.cpp:76-129 (setTimeSteps): minimum and normalized time steps.  The minimum is [None]
    (infinity) for an empty mesh, where the code continues with the largest double; the model stops. *)
Definition setTimeSteps (nElVes nEls : nat) (elVe : list nat) (inDia : list Q) (velModEl : bool) (speed : nat -> Q) (ts : list Q) : res (Q * list Q) :=
  '(m, ts) <- for_ 0 nEls (fun el (s : option Q * list Q) =>
     c <- meanSpeed nElVes elVe velModEl speed el ;;
     _ <- check (negb (Qle_bool c 0)) ;;
     d <- rd inDia el ;;
     ts <- wr (snd s) el (d / c)%Q ;;
     Ok (Some (match fst s with None => d / c | Some m => Qmin m (d / c) end)%Q, ts)) (None, ts) ;;
  match m with
  | None => Er Echeck
  | Some m => _ <- check (negb (Qle_bool m 0)) ;;
              ts <- for_ 0 nEls (fun el ts => t <- rd ts el ;; wr ts el (t * (1 / m))%Q) ts ;; Ok (m, ts)
  end.
