(** Scheduling of local time stepping on one rank (seismic solver): model.

    Models  src/time/Manager.cpp (compute, simulate, getTimePredAvailable, getTimePredConsumed),
            src/impl/seismic/inc/time/man_sched.inc (schedule),
            src/parallel/Shared.cpp (status of work packages),
            src/time/TimeGroupStatic.{h,cpp} (counters),
            src/impl/seismic/steps.inc and the buffer handling of src/impl/seismic/solvers/AderDg.hpp.

    The scheduling thread executes the [if]-blocks of schedule() one after the other, forever; the workers pick and
    finish work packages in between.  A run is any interleaving of these actions.

    Simplifications:
    - each [if]-block of man_sched.inc (guard and effect) is one atomic step of the scheduling thread;
    - a worker may pick any of its packages which is ready (getWrkTd picks the first in priority order);
    - the answers of finSends / finRecvs are inputs of the step (arbitrary here, see DistModel.v for the network);
    - numbers are unbounded; the value std::numeric_limits< unsigned short >::max() of an untouched control flow entry is 9,
      a value which, like max(), differs from and is larger than every value assigned by the code;
    - numerical contents are replaced by the interval of simulated time they cover, see [bufs]. *)
From Verif Require Import Util.

(** Status of a work package. Models src/parallel/Shared.h:50-55 (t_status). *)
Inductive status := RDY | IPR | FIN | WAI.

Definition status_eqb (a b : status) : bool :=
  match a, b with RDY, RDY | IPR, IPR | FIN, FIN | WAI, WAI => true | _, _ => false end.

Definition fset {A} (f : nat -> A) (i : nat) (v : A) : nat -> A := fun j => if j =? i then v else f j.

(** Time group: counters and its row of the control flow table.
    Models src/time/TimeGroupStatic.h:46-65 (members) and src/time/Manager.h:59 (m_cflow[tg]).
    [srI], [srS] are ghost counters of finished source steps; the code has no such counters. *)
Record tgs := mkTgs {
  nTs : nat;    (* m_nTsSync *)
  tpI : nat;    (* m_nTimePredSync[0] *)
  tpS : nat;    (* m_nTimePredSync[1] *)
  srI : nat;    (* ghost: source steps, inner *)
  srS : nat;    (* ghost: source steps, send *)
  duI : nat;    (* m_nDofUpSync[0] *)
  duS : nat;    (* m_nDofUpSync[1] *)
  nSe : nat;    (* m_nSendSync *)
  nRe : nat;    (* m_nRecvSync *)
  cf  : nat -> nat (* m_cflow[tg][.] *)
}.

(** record updates *)
Definition set_cf (t : tgs) (i v : nat) : tgs :=
  mkTgs (nTs t) (tpI t) (tpS t) (srI t) (srS t) (duI t) (duS t) (nSe t) (nRe t) (fset (cf t) i v).
(** Models src/time/TimeGroupStatic.h:126,131,136,141,146,151 (updateTimePredInner .. updateRecv). *)
Definition inc_tpI t := mkTgs (nTs t) (S (tpI t)) (tpS t) (srI t) (srS t) (duI t) (duS t) (nSe t) (nRe t) (cf t).
Definition inc_tpS t := mkTgs (nTs t) (tpI t) (S (tpS t)) (srI t) (srS t) (duI t) (duS t) (nSe t) (nRe t) (cf t).
Definition inc_srI t := mkTgs (nTs t) (tpI t) (tpS t) (S (srI t)) (srS t) (duI t) (duS t) (nSe t) (nRe t) (cf t).
Definition inc_srS t := mkTgs (nTs t) (tpI t) (tpS t) (srI t) (S (srS t)) (duI t) (duS t) (nSe t) (nRe t) (cf t).
Definition inc_duI t := mkTgs (nTs t) (tpI t) (tpS t) (srI t) (srS t) (S (duI t)) (duS t) (nSe t) (nRe t) (cf t).
Definition inc_duS t := mkTgs (nTs t) (tpI t) (tpS t) (srI t) (srS t) (duI t) (S (duS t)) (nSe t) (nRe t) (cf t).
Definition inc_nSe t := mkTgs (nTs t) (tpI t) (tpS t) (srI t) (srS t) (duI t) (duS t) (S (nSe t)) (nRe t) (cf t).
Definition inc_nRe t := mkTgs (nTs t) (tpI t) (tpS t) (srI t) (srS t) (duI t) (duS t) (nSe t) (S (nRe t)) (cf t).
(** Models src/time/TimeGroupStatic.cpp:103-111 (updateTsInfo, the counter m_nTsSync; time is in TimeGroup.v). *)
Definition inc_nTs t := mkTgs (S (nTs t)) (tpI t) (tpS t) (srI t) (srS t) (duI t) (duS t) (nSe t) (nRe t) (cf t).

(** An interval [lo, hi) of simulated time, in steps of the smallest group; [None]: not a contiguous interval. *)
Definition tag := option (nat * nat).

(** tag of a sum of two time integrals: defined if the second continues the first *)
Definition tag_add (a b : tag) : tag :=
  match a, b with
  | Some (x, y), Some (y', z) => if y =? y' then Some (x, z) else None
  | _, _ => None
  end.

(** tag of the difference of an integral and an integral over a leading part *)
Definition tag_sub (a b : tag) : tag :=
  match a, b with
  | Some (x, z), Some (x', y) => if (x =? x') && (y <=? z) then Some (y, z) else None
  | _, _ => None
  end.

(** Time integrated DOFs of the elements of one work package: the three buffers tDofs[0..2].
    Models src/impl/seismic/solvers/AderDg.hpp:339-417 (io_tDofs). *)
Record bufs := mkBufs { d0 : tag; d1 : tag; d2 : tag }.

(** State of a worker in compute(): looking for work, has got a ready package (getWrkTd returned true), is computing it.
    Models src/time/Manager.cpp:95-196. *)
Inductive wst := Idle | Got (g e : nat) | Busy (g e : nat).

(** region = (time group, entry); entries as in man_sched.inc / setup.inc:
    0 local inner, 1 local send, 2 sources inner, 3 sources send, 4 neighbouring inner, 5 neighbouring send.
    Models src/impl/seismic/setup.inc:334-399 (ids 8*tg + entry). *)
Record rst := mkRst {
  tg  : nat -> tgs;
  stat : nat -> nat -> nat -> status;        (* tg, entry, worker *)
  cur : nat -> wst;                          (* what a worker is doing *)
  exe : nat -> nat -> nat -> nat;            (* ghost: number of finished executions of a package *)
  buf : nat -> nat -> nat -> bufs;           (* tg, 0 inner / 1 send, worker *)
  sbf : nat -> nat -> nat -> tag * tag;      (* send buffer slots: tg, tg of the receiver, worker *)
  pc  : nat;                                 (* position of the scheduling thread in schedule() *)
  nFin : nat;                                (* l_nTgsFin *)
  fin : bool                                 (* m_finished *)
}.

Record cfg := mkCfg {
  nT : nat;      (* number of time groups *)
  nW : nat;      (* number of workers *)
  nFull : nat    (* full time steps of the largest time group in this synchronization interval *)
}.

(** Models src/time/TimeGroupStatic.cpp:51-55 (m_maxDiv). *)
Definition maxDiv (c : cfg) (g : nat) : nat := 2 ^ (nT c - 1 - g).
(** Models src/time/TimeGroupStatic.cpp:83 (m_nTsReqFull). *)
Definition nReqFull (c : cfg) (g : nat) : nat := nFull c * maxDiv c g.
(** Models src/time/TimeGroupStatic.h:246-248 (finished). *)
Definition finished (c : cfg) (g : nat) (t : tgs) : bool := nTs t =? nReqFull c g + maxDiv c g.
(** Models src/time/TimeGroupStatic.h:237-239 (lastTimeStep). *)
Definition lastTimeStep (c : cfg) (g : nat) (t : tgs) : bool := nTs t =? nReqFull c g + maxDiv c g - 1.

(** Models src/time/Manager.cpp:59-73 (getTimePredAvailable). *)
Definition predAvailable (c : cfg) (s : rst) (g : nat) : bool :=
  (if g =? 0 then true else
     (tpI (tg s (g - 1)) =? tpI (tg s g) * 2) && (tpS (tg s (g - 1)) =? tpS (tg s g) * 2)) &&
  (if g =? nT c - 1 then true else
     (tpI (tg s g) <=? tpI (tg s (g + 1)) * 2) && (tpS (tg s g) <=? tpS (tg s (g + 1)) * 2)).

(** Models src/time/Manager.cpp:75-89 (getTimePredConsumed). *)
Definition predConsumed (c : cfg) (s : rst) (g : nat) : bool :=
  (if g =? 0 then true else
     (duI (tg s (g - 1)) =? tpI (tg s g) * 2) && (duS (tg s (g - 1)) =? tpS (tg s g) * 2)) &&
  (if g =? nT c - 1 then true else
     (nTs (tg s g) mod 2 =? 0) ||
     ((tpI (tg s g) =? duI (tg s (g + 1)) * 2) && (tpS (tg s g) =? duS (tg s (g + 1)) * 2))).

(** Models src/parallel/Shared.cpp:248-265 (getStatusAll with FIN). *)
Definition allFin (c : cfg) (s : rst) (g e : nat) : bool :=
  forallb (fun w => status_eqb (stat s g e w) FIN) (seq 0 (nW c)).

(** The checks of setStatusAll( RDY ). Models src/parallel/Shared.cpp:182-188. *)
Definition rdyAllowed (c : cfg) (s : rst) (g e : nat) : bool :=
  forallb (fun w => status_eqb (stat s g e w) FIN || status_eqb (stat s g e w) WAI) (seq 0 (nW c)).

Definition set_stat (s : rst) (g e w : nat) (v : status) : nat -> nat -> nat -> status :=
  fun g' e' w' => if (g' =? g) && (e' =? e) && (w' =? w) then v else stat s g' e' w'.

Definition with_tg (s : rst) (g : nat) (t : tgs) : rst :=
  mkRst (fset (tg s) g t) (stat s) (cur s) (exe s) (buf s) (sbf s) (pc s) (nFin s) (fin s).

(** MPI operations issued by the scheduling thread (flag: the argument i_lt) *)
Inductive event := EvSend (lt : bool) (g : nat) | EvRecv (lt : bool) (g : nat).

(** [Next]: new state and issued MPI operation; [Stuck]: the action is not possible; [Fail]: an EDGE_CHECK fails. *)
Inductive out := Next (s : rst) (ev : option event) | Stuck | Fail.

(** Models src/parallel/Shared.cpp:170-193 (setStatusAll with RDY) followed by the control flow update [t]. *)
Definition set_rdy (c : cfg) (s : rst) (g e : nat) (t : tgs) : out :=
  if rdyAllowed c s g e then
    Next (mkRst (fset (tg s) g t)
                (fun g' e' w' => if (g' =? g) && (e' =? e) && (w' <? nW c) then RDY else stat s g' e' w')
                (cur s) (exe s) (buf s) (sbf s) (pc s) (nFin s) (fin s)) None
  else Fail.

(** The blocks of schedule(), in program order. *)
Inductive blk :=
| Binit | Bloc0 | Bloc1 | Bsrc2 | Bsrc3 | Bnei4 | Bnei5 | Bsend6 | Brecv7           (* first loop *)
| Slocal1 | Slocal0 | Ssend | Ssrc3 | Ssrc2 | Sneigh5 | Sneigh4 | Srecv | Sstep | Scount. (* second loop *)

Inductive instr := I (g : nat) (b : blk) | Izero | Iend.

Definition loop1 : list blk := [Binit; Bloc0; Bloc1; Bsrc2; Bsrc3; Bnei4; Bnei5; Bsend6; Brecv7].
Definition loop2 : list blk := [Slocal1; Slocal0; Ssend; Ssrc3; Ssrc2; Sneigh5; Sneigh4; Srecv; Sstep; Scount].

(** Models src/impl/seismic/inc/time/man_sched.inc:39-206, the order of the blocks. *)
Definition prog (c : cfg) : list instr :=
  flat_map (fun g => map (I g) loop1) (seq 0 (nT c)) ++ [Izero] ++
  flat_map (fun g => map (I g) loop2) (seq 0 (nT c)) ++ [Iend].

Definition cfe (t : tgs) (i v : nat) : bool := cf t i =? v.

(** Untouched entry, std::numeric_limits< unsigned short >::max() in the code. *)
Definition cfMax : nat := 9.

(** One block; [mpi] is the answer of finSends / finRecvs.
    Models src/impl/seismic/inc/time/man_sched.inc, lines as given per case. *)
Definition run_blk (c : cfg) (mpi : bool) (s : rst) (g : nat) (b : blk) : out :=
  let t := tg s g in
  let skip := Next s None in
  match b with
  | Binit => (* 43-55 *)
      if cfe t 0 cfMax then
        Next (with_tg s g (mkTgs (nTs t) (tpI t) (tpS t) (srI t) (srS t) (duI t) (duS t) (nSe t) (nRe t)
                             (fset (fset (fun _ => 0) 6 2) 7 1)))
             (Some (EvRecv (nRe t mod 2 =? 0) g))
      else skip
  | Bloc0 => (* 58-61 *)
      if cfe t 0 1 && allFin c s g 0 then Next (with_tg s g (inc_tpI (set_cf t 0 2))) None else skip
  | Bloc1 => (* 63-66 *)
      if cfe t 1 1 && allFin c s g 1 then Next (with_tg s g (inc_tpS (set_cf t 1 2))) None else skip
  | Bsrc2 => (* 68-70 *)
      if cfe t 2 1 && allFin c s g 2 then Next (with_tg s g (inc_srI (set_cf t 2 2))) None else skip
  | Bsrc3 => (* 72-74 *)
      if cfe t 3 1 && allFin c s g 3 then Next (with_tg s g (inc_srS (set_cf t 3 2))) None else skip
  | Bnei4 => (* 76-79 *)
      if cfe t 4 1 && allFin c s g 4 then Next (with_tg s g (inc_duI (set_cf t 4 2))) None else skip
  | Bnei5 => (* 81-84 *)
      if cfe t 5 1 && allFin c s g 5 then Next (with_tg s g (inc_duS (set_cf t 5 2))) None else skip
  | Bsend6 => (* 86-89 *)
      if cfe t 6 1 && mpi then Next (with_tg s g (inc_nSe (set_cf t 6 2))) None else skip
  | Brecv7 => (* 91-94 *)
      if cfe t 7 1 && mpi then Next (with_tg s g (inc_nRe (set_cf t 7 2))) None else skip
  | Slocal1 => (* 105-110 *)
      if cfe t 1 0 && cfe t 6 2 then set_rdy c s g 1 (set_cf (set_cf t 1 1) 6 0) else skip
  | Slocal0 => (* 113-117 *)
      if cfe t 0 0 then set_rdy c s g 0 (set_cf t 0 1) else skip
  | Ssend => (* 120-125 *)
      if cfe t 1 2 && cfe t 6 0 then
        Next (with_tg s g (set_cf (set_cf t 1 3) 6 1)) (Some (EvSend (nSe t mod 2 =? 1) g))
      else skip
  | Ssrc3 => (* 128-133 *)
      if cfe t 1 3 && cfe t 3 0 then set_rdy c s g 3 (set_cf (set_cf t 1 4) 3 1) else skip
  | Ssrc2 => (* 136-141 *)
      if cfe t 0 2 && cfe t 2 0 then set_rdy c s g 2 (set_cf (set_cf t 0 4) 2 1) else skip
  | Sneigh5 => (* 144-153 *)
      if cfe t 7 2 && (4 <=? cf t 0) && (4 <=? cf t 1) && cfe t 3 2 && cfe t 5 0 && predAvailable c s g
      then set_rdy c s g 5 (set_cf (set_cf (set_cf (set_cf t 1 5) 3 3) 5 1) 7 0) else skip
  | Sneigh4 => (* 156-166, without the flush of the receiver output *)
      if (4 <=? cf t 0) && (4 <=? cf t 1) && cfe t 2 2 && cfe t 4 0 && predAvailable c s g
      then set_rdy c s g 4 (set_cf (set_cf (set_cf t 0 5) 2 3) 4 1) else skip
  | Srecv => (* 169-180 *)
      if cfe t 5 2 && cfe t 7 0 then
        if negb (lastTimeStep c g t)
        then Next (with_tg s g (set_cf (set_cf t 7 1) 5 3)) (Some (EvRecv (nRe t mod 2 =? 0) g))
        else Next (with_tg s g (set_cf (set_cf t 7 3) 5 3)) None
      else skip
  | Sstep => (* 183-194 *)
      if cfe t 4 2 && cfe t 5 3 && predConsumed c s g then
        let t := inc_nTs t in
        if negb (finished c g t)
        then Next (with_tg s g (set_cf (set_cf (set_cf (set_cf (set_cf (set_cf t 0 0) 1 0) 2 0) 3 0) 4 0) 5 0)) None
        else Next (with_tg s g (set_cf (set_cf t 4 4) 5 4)) None
      else skip
  | Scount => (* 197-199 *)
      if finished c g t && (2 <=? cf t 6) && (2 <=? cf t 7)
      then Next (mkRst (tg s) (stat s) (cur s) (exe s) (buf s) (sbf s) (pc s) (S (nFin s)) (fin s)) None
      else skip
  end.

Definition set_pc (s : rst) (p : nat) : rst :=
  mkRst (tg s) (stat s) (cur s) (exe s) (buf s) (sbf s) p (nFin s) (fin s).

(** One step of the scheduling thread: execute the block at [pc] and go on; the last instruction (203-206) sets m_finished
    if all time groups are finished and returns to the beginning (simulate() calls schedule() again).
    Models src/impl/seismic/inc/time/man_sched.inc:37-206 and src/time/Manager.cpp:228-232. *)
Definition sched_step (c : cfg) (mpi : bool) (s : rst) : out :=
  if fin s then Stuck else
  match nth_error (prog c) (pc s) with
  | None => Stuck
  | Some (I g b) =>
      match run_blk c mpi s g b with
      | Next s' ev => Next (set_pc s' (S (pc s'))) ev
      | o => o
      end
  | Some Izero =>
      Next (mkRst (tg s) (stat s) (cur s) (exe s) (buf s) (sbf s) (S (pc s)) 0 (fin s)) None
  | Some Iend =>
      Next (mkRst (tg s) (stat s) (cur s) (exe s) (buf s) (sbf s) 0 (nFin s) (nFin s =? nT c)) None
  end.

(** Interval covered by step [n] of group [g]; a step of group [g] has 2^g steps of the smallest group
    (src/time/TimeGroupStatic.cpp:46-50, m_funMul). *)
Definition iv (g n : nat) : nat * nat := (n * 2 ^ g, (n + 1) * 2 ^ g).

(** Local update of a package in step [n] of group [g]: writes the time integrated DOFs.
    tDofs[0]: the full step (AderDg.hpp:371-381);
    tDofs[1]: reset in even steps, then the full step is added (384-410; used if a larger group is adjacent);
    tDofs[2]: first half of the step (413-417; used if a smaller group is adjacent).
    firstTs is (getUpdatesSync % 2 == 0), steps.inc:24-44. *)
Definition local_bufs (g n : nat) (b : bufs) : bufs :=
  let full := Some (iv g n) in
  mkBufs full
         (if n mod 2 =? 0 then full else tag_add (d1 b) full)
         (Some (n * 2 ^ g, n * 2 ^ g + 2 ^ (g - 1))).

(** Slots of the send buffer written by the local update of a send package for faces whose adjacent element is in group [h].
    Models src/impl/seismic/solvers/AderDg.hpp:419-473. *)
Definition local_send (g n : nat) (b : bufs) (h : nat) (old : tag * tag) : tag * tag :=
  if g =? h then (d0 b, None)
  else if g <? h then (if n mod 2 =? 0 then old else (d1 b, None))
  else (d2 b, tag_sub (d0 b) (d2 b)).

(** A worker finds one of its packages ready (any: over-approximates the choice by priority).
    Models src/time/Manager.cpp:108-110 and src/parallel/Shared.cpp:125-168 (getWrkTd). *)
Definition get_step (c : cfg) (w g e : nat) (s : rst) : out :=
  if negb ((w <? nW c) && (g <? nT c) && (e <? 6)) then Stuck else
  match cur s w with
  | Idle =>
      if status_eqb (stat s g e w) RDY
      then Next (mkRst (tg s) (stat s) (fset (cur s) w (Got g e))
                       (exe s) (buf s) (sbf s) (pc s) (nFin s) (fin s)) None
      else Stuck
  | _ => Stuck
  end.

(** The worker sets the package to IPR, with the check of setStatusTd.
    Models src/time/Manager.cpp:111-115 and src/parallel/Shared.cpp:213-233. *)
Definition start_step (c : cfg) (w : nat) (s : rst) : out :=
  match cur s w with
  | Got g e =>
      if negb (status_eqb (stat s g e w) RDY) then Fail else
      Next (mkRst (tg s) (set_stat s g e w IPR) (fset (cur s) w (Busy g e))
                  (exe s) (buf s) (sbf s) (pc s) (nFin s) (fin s)) None
  | _ => Stuck
  end.

(** The worker has computed its package and sets it to FIN, with the check of setStatusTd.
    The effect of the local update on the buffers happens here.
    Models src/time/Manager.cpp:116-190, src/parallel/Shared.cpp:235-245, src/impl/seismic/steps.inc:24-44. *)
Definition done_step (c : cfg) (w : nat) (s : rst) : out :=
  match cur s w with
  | Busy g e =>
      if negb (status_eqb (stat s g e w) IPR) then Fail else
      let n := nTs (tg s g) in
      let b := local_bufs g n (buf s g e w) in
      Next (mkRst (tg s) (set_stat s g e w FIN) (fset (cur s) w Idle)
                  (fun g' e' w' => if (g' =? g) && (e' =? e) && (w' =? w) then S (exe s g e w) else exe s g' e' w')
                  (if e <? 2 then fun g' e' w' => if (g' =? g) && (e' =? e) && (w' =? w) then b else buf s g' e' w'
                   else buf s)
                  (if e =? 1 then fun g' h w' => if (g' =? g) && (w' =? w) then local_send g n b h (sbf s g h w)
                                                 else sbf s g' h w'
                   else sbf s)
                  (pc s) (nFin s) (fin s)) None
  | _ => Stuck
  end.

(** what a package's neighbouring update reads for a face: the group's own elements, elements of the next smaller
    group or of the next larger group.  firstTs is evaluated with the reading group's step count.
    Models src/impl/seismic/solvers/AderDg.hpp:620-674. *)
Definition read_face (s : rst) (g h e w : nat) : tag :=
  let b := buf s h e w in
  if h =? g then d0 b
  else if h <? g then d1 b
  else if nTs (tg s g) mod 2 =? 0 then d2 b else tag_sub (d0 b) (d2 b).

Inductive label := LSched (mpi : bool) | LGet (w g e : nat) | LStart (w : nat) | LDone (w : nat).

Definition rstep (c : cfg) (s : rst) (l : label) : out :=
  match l with
  | LSched mpi => sched_step c mpi s
  | LGet w g e => get_step c w g e s
  | LStart w => start_step c w s
  | LDone w => done_step c w s
  end.

(** Initial state of a synchronization interval. Models src/time/Manager.cpp:201-221 and
    src/time/TimeGroupStatic.cpp:69-92 (setUp, counters). *)
Definition tgs0 : tgs := mkTgs 0 0 0 0 0 0 0 0 0 (fun _ => cfMax).
Definition init (b0 : nat -> nat -> nat -> bufs) (sb0 : nat -> nat -> nat -> tag * tag) : rst :=
  mkRst (fun _ => tgs0) (fun _ _ _ => WAI) (fun _ => Idle) (fun _ _ _ => 0) b0 sb0 0 0 false.

(** Reachable states: any interleaving, any answers of MPI, any initial buffer contents. *)
Inductive reach (c : cfg) : rst -> Prop :=
| reach0 b0 sb0 : reach c (init b0 sb0)
| reachS s l s' ev : reach c s -> rstep c s l = Next s' ev -> reach c s'.
