(** Scheduling of the shallow-water solver: model.

    Models src/impl/swe/inc/time/man_sched.inc (schedule), src/impl/swe/inc/time/tgs_steps.inc (the two steps),
    src/time/Manager.cpp:95-239 (compute, simulate), src/parallel/Shared.cpp (statuses).

    Region 0 (step 0) computes the net-updates of the faces from the DOFs of the elements (FiniteVolume::nusN), region 1
    (step 1) updates the DOFs of the elements from the net-updates (FiniteVolume::update); src/impl/swe/setup.inc:76-84.
    Simplifications: each [if]-block of man_sched.inc is one atomic step of the scheduling thread; the numerical kernels are
    arbitrary functions of everything they might read; their results are stored when the package is set to finished
    (that nobody modifies what they read meanwhile is part of the theorems). *)
From Verif Require Import Util SchedModel.

Section Swe.
(** values of the elements / the faces of one work package *)
Context {V W : Type}.
(** Kernel of package [w] of region 0: reads the DOFs of all elements. Models src/impl/swe/inc/time/tgs_steps.inc:23-34. *)
Variable nusP : nat -> list V -> W.
(** Kernel of package [w] of region 1 in step [n], which determines the time step size: reads the net-updates of all faces and
    its own DOFs. Models src/impl/swe/inc/time/tgs_steps.inc:35-48. *)
Variable updP : nat -> nat -> list W -> V -> V.
(** number of workers; required number of steps, nReqFull + maxDiv of src/time/TimeGroupStatic.h:246-248 *)
Variables (nw N : nat).

(** What a worker does: src/time/Manager.cpp:95-196; the argument is the region. *)
Inductive swst := SIdle | SGot (r : nat) | SBusy (r : nat).

Record sst := mkSst {
  sn : nat;                          (* m_nTsSync *)
  c0 : nat; c1 : nat;                (* m_cflow[0][0], m_cflow[0][1]; 9 is numeric_limits::max *)
  sstat : nat -> nat -> status;      (* region, worker *)
  scur : nat -> swst;
  sexe : nat -> nat -> nat;          (* ghost: finished executions of a package *)
  dofs : list V;                     (* DOFs of the elements, per package *)
  nets : list W;                     (* net-updates of the faces, per package *)
  spc : nat;                         (* position of the scheduling thread *)
  sfin : bool                        (* m_finished *)
}.

Inductive sout := SNext (s : sst) | SStuck | SFail.

Definition sallFin (s : sst) (r : nat) : bool := forallb (fun w => status_eqb (sstat s r w) FIN) (seq 0 nw).
Definition srdyAllowed (s : sst) (r : nat) : bool :=
  forallb (fun w => status_eqb (sstat s r w) FIN || status_eqb (sstat s r w) WAI) (seq 0 nw).

(** setStatusAll( RDY, r ), new control flow entries and step counter. Models src/parallel/Shared.cpp:170-193. *)
Definition srdy (s : sst) (r n a b : nat) : sout :=
  if srdyAllowed s r then
    SNext (mkSst n a b (fun r' w' => if (r' =? r) && (w' <? nw) then RDY else sstat s r' w')
                 (scur s) (sexe s) (dofs s) (nets s) (spc s) (sfin s))
  else SFail.

Definition sctl (s : sst) (n a b : nat) : sst :=
  mkSst n a b (sstat s) (scur s) (sexe s) (dofs s) (nets s) (spc s) (sfin s).
Definition spos (s : sst) (p : nat) : sst :=
  mkSst (sn s) (c0 s) (c1 s) (sstat s) (scur s) (sexe s) (dofs s) (nets s) p (sfin s).

(** Block [i] of schedule(). Models src/impl/swe/inc/time/man_sched.inc, lines as given per case. *)
Definition sblk (s : sst) (i : nat) : sout :=
  match i with
  | 0 => (* 38-43 *) if c0 s =? 9 then srdy s 0 (sn s) 1 0 else SNext s
  | 1 => (* 46 *) if (c0 s =? 1) && sallFin s 0 then SNext (sctl s (sn s) 2 (c1 s)) else SNext s
  | 2 => (* 49 *) if (c1 s =? 1) && sallFin s 1 then SNext (sctl s (sn s) (c0 s) 2) else SNext s
  | 3 => (* 52-55 *)
      if sn s =? N then SNext (mkSst (sn s) (c0 s) (c1 s) (sstat s) (scur s) (sexe s) (dofs s) (nets s) (spc s) true) else SNext s
  | 4 => (* 57-62 *) if (c0 s =? 2) && (c1 s =? 0) then srdy s 1 (sn s) 0 1 else SNext s
  | _ => (* 65-74 *)
      if (c1 s =? 2) && (c0 s =? 0) then
        let n := S (sn s) in
        if negb (n =? N) then srdy s 0 n 1 0 else SNext (sctl s n (c0 s) 0)
      else SNext s
  end.

(** The scheduling thread: the six blocks in turn, until m_finished is set.
    Models src/impl/swe/inc/time/man_sched.inc:38-74, src/time/Manager.cpp:228-232. *)
Definition ssched (s : sst) : sout :=
  if sfin s then SStuck else
  match sblk s (spc s) with
  | SNext s' => SNext (spos s' (if spc s =? 5 then 0 else S (spc s)))
  | o => o
  end.

Definition sset (f : nat -> nat -> status) (r w : nat) (v : status) : nat -> nat -> status :=
  fun r' w' => if (r' =? r) && (w' =? w) then v else f r' w'.

(** Models src/time/Manager.cpp:110-111 (getWrkTd). *)
Definition sget (w r : nat) (s : sst) : sout :=
  if negb ((w <? nw) && (r <? 2)) then SStuck else
  match scur s w with
  | SIdle => if status_eqb (sstat s r w) RDY
             then SNext (mkSst (sn s) (c0 s) (c1 s) (sstat s) (fset (scur s) w (SGot r)) (sexe s) (dofs s) (nets s) (spc s) (sfin s))
             else SStuck
  | _ => SStuck
  end.

(** Models src/time/Manager.cpp:115 and src/parallel/Shared.cpp:213-233 (setStatusTd( IPR )). *)
Definition sstart (w : nat) (s : sst) : sout :=
  match scur s w with
  | SGot r => if negb (status_eqb (sstat s r w) RDY) then SFail else
      SNext (mkSst (sn s) (c0 s) (c1 s) (sset (sstat s) r w IPR) (fset (scur s) w (SBusy r)) (sexe s) (dofs s) (nets s) (spc s) (sfin s))
  | _ => SStuck
  end.

(** Models src/time/Manager.cpp:163-190, src/impl/swe/inc/time/tgs_steps.inc:23-48 and src/parallel/Shared.cpp:235-245. *)
Definition sdone (w : nat) (s : sst) : sout :=
  match scur s w with
  | SBusy r => if negb (status_eqb (sstat s r w) IPR) then SFail else
      SNext (mkSst (sn s) (c0 s) (c1 s) (sset (sstat s) r w FIN) (fset (scur s) w SIdle)
                   (fun r' w' => if (r' =? r) && (w' =? w) then S (sexe s r w) else sexe s r' w')
                   (if r =? 0 then dofs s
                    else match nth_error (dofs s) w with Some v => upd (dofs s) w (updP w (sn s) (nets s) v) | None => dofs s end)
                   (if r =? 0 then upd (nets s) w (nusP w (dofs s)) else nets s)
                   (spc s) (sfin s))
  | _ => SStuck
  end.

Inductive slabel := SLSched | SLGet (w r : nat) | SLStart (w : nat) | SLDone (w : nat).

Definition sstep (s : sst) (l : slabel) : sout :=
  match l with
  | SLSched => ssched s
  | SLGet w r => sget w r s
  | SLStart w => sstart w s
  | SLDone w => sdone w s
  end.

(** Start of a synchronization interval. Models src/time/Manager.cpp:201-221. *)
Definition sinit (d : list V) (f : list W) : sst :=
  mkSst 0 9 9 (fun _ _ => WAI) (fun _ => SIdle) (fun _ _ => 0) d f 0 false.

Inductive sreach (d : list V) : sst -> Prop :=
| sreach0 f : length f = nw -> sreach d (sinit d f)
| sreachS s l s' : sreach d s -> sstep s l = SNext s' -> sreach d s'.

End Swe.
