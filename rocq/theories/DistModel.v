(** Local time stepping on several ranks, connected by MPI: model.

    Each rank runs the scheduler and the workers of SchedModel.v; the sends and receives issued by its scheduling thread act
    on channels, and its finSends / finRecvs queries are answered from the state of the channels.

    Models  src/parallel/MpiRemix.cpp:72-181, src/parallel/Distributed.cpp:97-119.

    Simplifications:
    - a channel is a message of the communication structure: sending rank and group, receiving rank and group; offsets, sizes
      and MPI tags are the subject of Distr.v;
    - MPI: messages of a channel arrive in the order sent; a send may complete at any time after it was begun (buffered) and can
      complete if the receive was posted (rendezvous); a receive completes if it was posted and the message was sent;
    - the message has the contents of the send buffer when the send begins (C06: the buffer is not written before the send
      completes). *)
From Verif Require Import Util SchedModel.

(** Models src/parallel/Distributed.h, struct Msg: tgL, tgR, rank. *)
Record chan := mkChan { cS : nat; cG : nat; cR : nat; cH : nat }.

Record gcfg := mkG {
  gR : nat;               (* number of ranks *)
  gT : nat;               (* number of time groups *)
  gW : nat -> nat;        (* workers per rank *)
  gF : nat;               (* full steps of the largest group *)
  gC : list chan
}.

Definition rcfg (G : gcfg) (r : nat) : cfg := mkCfg (gT G) (gW G r) (gF G).

(** State of a channel. Models m_sendReqs, m_sendTests, m_recvReqs, m_recvTests (MpiRemix.h), the buffers and MPI. *)
Record chst := mkCh {
  sAct : bool;                        (* send request is not MPI_REQUEST_NULL *)
  sTst : bool;                        (* m_sendTests *)
  sN : nat;                           (* ghost: number of sends begun *)
  rAct : bool;                        (* receive request is not MPI_REQUEST_NULL *)
  rTst : bool;                        (* m_recvTests *)
  rN : nat;                           (* ghost: number of receives posted *)
  rD : nat;                           (* ghost: number of receives completed *)
  msg : nat -> nat -> tag * tag;      (* ghost: contents of the messages sent, per worker of the sender *)
  rbf : nat -> tag * tag              (* receive buffer, per worker of the sender *)
}.

Record gst := mkGst { rk : nat -> rst; net : nat -> chst }.

Definition ch (G : gcfg) (i : nat) : chan := nth i (gC G) (mkChan 0 0 0 0).

(** Models src/parallel/Distributed.cpp:97-107 (checkSendTgLt), of rank [r]. *)
Definition matchS (c : chan) (r : nat) (lt : bool) (g : nat) : bool :=
  (cS c =? r) && ((cG c =? g) && (if cG c <? cH c then lt else true)).
(** Models src/parallel/Distributed.cpp:109-119 (checkRecvTgLt), of rank [r]. *)
Definition matchR (c : chan) (r : nat) (lt : bool) (h : nat) : bool :=
  (cR c =? r) && ((cH c =? h) && (if cH c <? cG c then lt else true)).

(** Models src/parallel/MpiRemix.cpp:155-167. *)
Definition finSends (G : gcfg) (s : gst) (r : nat) (lt : bool) (g : nat) : bool :=
  forallb (fun i => negb (matchS (ch G i) r lt g) || sTst (net s i)) (seq 0 (length (gC G))).
(** Models src/parallel/MpiRemix.cpp:169-181. *)
Definition finRecvs (G : gcfg) (s : gst) (r : nat) (lt : bool) (g : nat) : bool :=
  forallb (fun i => negb (matchR (ch G i) r lt g) || rTst (net s i)) (seq 0 (length (gC G))).

(** Models src/parallel/MpiRemix.cpp:82-90, one channel. *)
Definition beginSend (G : gcfg) (s : rst) (i : nat) (n : chst) : chst :=
  mkCh true false (S (sN n)) (rAct n) (rTst n) (rN n) (rD n)
       (fset (msg n) (sN n) (sbf s (cG (ch G i)) (cH (ch G i)))) (rbf n).
(** Models src/parallel/MpiRemix.cpp:104-112, one channel; the receive buffer is undefined until the receive completes. *)
Definition beginRecv (n : chst) : chst :=
  mkCh (sAct n) (sTst n) (sN n) true false (S (rN n)) (rD n) (msg n) (fun _ => (None, None)).

(** Models src/parallel/MpiRemix.cpp:72-115 (beginSends, beginRecvs): all matching channels. *)
Definition apply_ev (G : gcfg) (r : nat) (s : rst) (ev : option event) (nt : nat -> chst) : nat -> chst :=
  match ev with
  | None => nt
  | Some (EvSend lt g) => fun i => if matchS (ch G i) r lt g then beginSend G s i (nt i) else nt i
  | Some (EvRecv lt g) => fun i => if matchR (ch G i) r lt g then beginRecv (nt i) else nt i
  end.

(** The query of the block at the scheduler's position. Models man_sched.inc:86, 91. *)
Definition mpi_answer (G : gcfg) (s : gst) (r : nat) : bool :=
  match nth_error (prog (rcfg G r)) (pc (rk s r)) with
  | Some (I g Bsend6) => finSends G s r (nSe (tg (rk s r) g) mod 2 =? 1) g
  | Some (I g Brecv7) => finRecvs G s r (nRe (tg (rk s r) g) mod 2 =? 0) g
  | _ => true
  end.

(** MPI_Test of a send request succeeds. Models src/parallel/MpiRemix.cpp:123-134; MPI_REQUEST_NULL tests positive. *)
Definition testSend (n : chst) : chst :=
  mkCh false true (sN n) (rAct n) (rTst n) (rN n) (rD n) (msg n) (rbf n).
(** MPI_Test of a receive request succeeds. Models src/parallel/MpiRemix.cpp:136-147. *)
Definition testRecv (n : chst) : option chst :=
  if rAct n then
    if rD n <? sN n then Some (mkCh (sAct n) (sTst n) (sN n) false true (rN n) (S (rD n)) (msg n) (msg n (rD n)))
    else None
  else Some (mkCh (sAct n) (sTst n) (sN n) false true (rN n) (rD n) (msg n) (rbf n)).

Inductive glabel := GSched (r : nat) | GWork (r : nat) (l : label) | GTestS (i : nat) | GTestR (i : nat).

Inductive gout := GNext (s : gst) | GStuck | GFail.

Definition rank_step (G : gcfg) (s : gst) (r : nat) (l : label) : gout :=
  match rstep (rcfg G r) (rk s r) l with
  | Next s' ev => GNext (mkGst (fset (rk s) r s') (apply_ev G r (rk s r) ev (net s)))
  | Stuck => GStuck
  | Fail => GFail
  end.

Definition gstep (G : gcfg) (s : gst) (l : glabel) : gout :=
  match l with
  | GSched r => if r <? gR G then rank_step G s r (LSched (mpi_answer G s r)) else GStuck
  | GWork r (LSched _) => GStuck
  | GWork r l => if r <? gR G then rank_step G s r l else GStuck
  | GTestS i => if i <? length (gC G) then GNext (mkGst (rk s) (fset (net s) i (testSend (net s i)))) else GStuck
  | GTestR i => if i <? length (gC G) then
                  match testRecv (net s i) with
                  | Some n => GNext (mkGst (rk s) (fset (net s) i n))
                  | None => GStuck
                  end
                else GStuck
  end.

(** what the neighbouring update of a send package of rank [cR], group [cH] reads for a face of channel [i].
    Models src/impl/seismic/solvers/AderDg.hpp:675-684. *)
Definition read_recv (G : gcfg) (s : gst) (i w : nat) : tag :=
  let c := ch G i in
  let v := rbf (net s i) w in
  if cH c <? cG c then (if nTs (tg (rk s (cR c)) (cH c)) mod 2 =? 0 then fst v else snd v) else fst v.

Definition net0 (sT rT : nat -> bool) (rb : nat -> nat -> tag * tag) : nat -> chst :=
  fun i => mkCh false (sT i) 0 false (rT i) 0 0 (fun _ _ => (None, None)) (rb i).

(** Initial state of a synchronization interval: no requests pending (tests and buffer contents arbitrary). *)
Definition ginit (b0 : nat -> nat -> nat -> nat -> bufs) (sb0 : nat -> nat -> nat -> nat -> tag * tag)
                 (sT rT : nat -> bool) (rb : nat -> nat -> tag * tag) : gst :=
  mkGst (fun r => init (b0 r) (sb0 r)) (net0 sT rT rb).

Inductive greach (G : gcfg) : gst -> Prop :=
| greach0 b0 sb0 sT rT rb : greach G (ginit b0 sb0 sT rT rb)
| greachS s l s' : greach G s -> gstep G s l = GNext s' -> greach G s'.
