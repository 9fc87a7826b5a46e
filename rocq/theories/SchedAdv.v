(** Scheduling of local time stepping on one rank, advection solver: model.

    Models src/impl/advection/inc/time/man_sched.inc (schedule); workers, statuses, counters and buffers as in SchedModel.v
    (the advection solver's local and neighbouring updates treat the buffers as the seismic ones do:
    src/impl/advection/inc/time/tgs_steps.inc:24-62, src/impl/advection/solvers/AderDg.hpp:195-274, 306-395).
    Simplifications as in SchedModel.v. *)
From Verif Require Import Util SchedModel.

(** Outcome of an action; the scheduling thread may issue two MPI operations in one block. *)
Inductive aout := ANext (s : rst) (ev : list event) | AStuck | AFail.

(** entries: 0 local inner, 1 local send, 2 neighbouring inner, 3 neighbouring send (4, 5: MPI, no work region).
    Models src/impl/advection/setup.inc:60-98. *)
Inductive ablk :=
| Ainit | Aloc0 | Aloc1 | Anei2 | Anei3 | Asend4 | Arecv5    (* first loop *)
| Ampi | Aneigh | Astep | Acount.                            (* second loop *)

Inductive ainstr := AI (g : nat) (b : ablk) | AIzero | AIend.

Definition aloop1 : list ablk := [Ainit; Aloc0; Aloc1; Anei2; Anei3; Asend4; Arecv5].
Definition aloop2 : list ablk := [Ampi; Aneigh; Astep; Acount].

(** Models src/impl/advection/inc/time/man_sched.inc:39-140, the order of the blocks. *)
Definition aprog (c : cfg) : list ainstr :=
  flat_map (fun g => map (AI g) aloop1) (seq 0 (nT c)) ++ [AIzero] ++
  flat_map (fun g => map (AI g) aloop2) (seq 0 (nT c)) ++ [AIend].

(** Two setStatusAll( RDY ) of different regions and the control flow update [t].
    Models src/parallel/Shared.cpp:170-193. *)
Definition set_rdy2 (c : cfg) (s : rst) (g e e2 : nat) (t : tgs) : aout :=
  if rdyAllowed c s g e && rdyAllowed c s g e2 then
    ANext (mkRst (fset (tg s) g t)
                 (fun g' e' w' => if (g' =? g) && ((e' =? e) || (e' =? e2)) && (w' <? nW c) then RDY else stat s g' e' w')
                 (cur s) (exe s) (buf s) (sbf s) (pc s) (nFin s) (fin s)) []
  else AFail.

Definition set_cf2 (t : tgs) (i j v : nat) : tgs := set_cf (set_cf t i v) j v.

(** One block; [mpi] is the answer of finSends / finRecvs.
    Models src/impl/advection/inc/time/man_sched.inc, lines as given per case. *)
Definition arun_blk (c : cfg) (mpi : bool) (s : rst) (g : nat) (b : ablk) : aout :=
  let t := tg s g in
  let skip := ANext s [] in
  match b with
  | Ainit => (* 43-49 *)
      if cfe t 0 cfMax then set_rdy2 c s g 0 1 (set_cf2 (set_cf2 (set_cf2 t 0 1 1) 2 3 0) 4 5 0) else skip
  | Aloc0 => (* 52-55 *)
      if cfe t 0 1 && allFin c s g 0 then ANext (with_tg s g (inc_tpI (set_cf t 0 2))) [] else skip
  | Aloc1 => (* 58-61 *)
      if cfe t 1 1 && allFin c s g 1 then ANext (with_tg s g (inc_tpS (set_cf t 1 2))) [] else skip
  | Anei2 => (* 64-67 *)
      if cfe t 2 1 && allFin c s g 2 then ANext (with_tg s g (inc_duI (set_cf t 2 2))) [] else skip
  | Anei3 => (* 70-73 *)
      if cfe t 3 1 && allFin c s g 3 then ANext (with_tg s g (inc_duS (set_cf t 3 2))) [] else skip
  | Asend4 => (* 76-78 *)
      if cfe t 4 1 && mpi then ANext (with_tg s g (set_cf t 4 2)) [] else skip
  | Arecv5 => (* 81-83 *)
      if cfe t 5 1 && mpi then ANext (with_tg s g (set_cf t 5 2)) [] else skip
  | Ampi => (* 94-101 *)
      if cfe t 1 2 then
        ANext (with_tg s g (set_cf (set_cf (set_cf t 4 1) 5 1) 1 3))
              [EvSend (nTs t mod 2 =? 1) g; EvRecv (nTs t mod 2 =? 0) g]
      else skip
  | Aneigh => (* 104-111 *)
      if cfe t 0 2 && cfe t 1 3 && cfe t 4 2 && cfe t 5 2 && predAvailable c s g
      then set_rdy2 c s g 2 3 (set_cf2 (set_cf2 (set_cf2 t 0 1 4) 2 3 1) 4 5 3) else skip
  | Astep => (* 114-128 *)
      if cfe t 2 2 && cfe t 3 2 && predConsumed c s g then
        let t := inc_nTs t in
        if negb (finished c g t)
        then set_rdy2 c s g 0 1 (set_cf2 (set_cf2 (set_cf2 t 0 1 1) 2 3 0) 4 5 0)
        else ANext (with_tg s g (set_cf2 (set_cf2 (set_cf2 t 0 1 0) 2 3 0) 4 5 0)) []
      else skip
  | Acount => (* 131-133 *)
      if finished c g t
      then ANext (mkRst (tg s) (stat s) (cur s) (exe s) (buf s) (sbf s) (pc s) (S (nFin s)) (fin s)) []
      else skip
  end.

(** One step of the scheduling thread. Models src/impl/advection/inc/time/man_sched.inc:36-140. *)
Definition asched_step (c : cfg) (mpi : bool) (s : rst) : aout :=
  if fin s then AStuck else
  match nth_error (aprog c) (pc s) with
  | None => AStuck
  | Some (AI g b) =>
      match arun_blk c mpi s g b with
      | ANext s' ev => ANext (set_pc s' (S (pc s'))) ev
      | o => o
      end
  | Some AIzero =>
      ANext (mkRst (tg s) (stat s) (cur s) (exe s) (buf s) (sbf s) (S (pc s)) 0 (fin s)) []
  | Some AIend =>
      ANext (mkRst (tg s) (stat s) (cur s) (exe s) (buf s) (sbf s) 0 (nFin s) (nFin s =? nT c)) []
  end.

Definition lift (o : out) : aout :=
  match o with Next s None => ANext s [] | Next s (Some e) => ANext s [e] | Stuck => AStuck | Fail => AFail end.

(** Models src/time/Manager.cpp:95-239 for the advection build. *)
Definition astep (c : cfg) (s : rst) (l : label) : aout :=
  match l with
  | LSched mpi => asched_step c mpi s
  | LGet w g e => lift (get_step c w g e s)
  | LStart w => lift (start_step c w s)
  | LDone w => lift (done_step c w s)
  end.

Inductive areach (c : cfg) : rst -> Prop :=
| areach0 b0 sb0 : areach c (init b0 sb0)
| areachS s l s' ev : areach c s -> astep c s l = ANext s' ev -> areach c s'.
