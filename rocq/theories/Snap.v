(** Files of the wave field. Models src/io/WaveField.cpp:33-114, src/io/Vtk.cpp:28-121 and src/io/FileSystem.hpp:47-114.
    Simplifications: the arrays of the mesh and the degrees of freedom are functions of the ids (they are allocated for all ids below the
    numbers of entities); conversions to float and int are the parameters [fC] (coordinates), [fD] (DOFs), and the identity for ids;
    the VISIT element type, the memory allocations and the release are left out; the dead loop of WaveField.cpp:54-72 is modelled for its reads;
    stat, mkdir and fsync are recorded as requests for a directory; the external library visit_writer gets the call of
    Vtk.cpp:111-120 (record [call]) and reads [nCells] values from every pointer of a variable. *)
From Verif Require Import Util.
From Coq Require Import String Ascii DecimalString.
Open Scope string_scope.
Open Scope list_scope.

(** std::to_string of an unsigned integer *)
Definition tos (n : nat) : string := NilZero.string_of_uint (Nat.to_uint n).

Definition isSep (c : ascii) : bool := (Ascii.eqb c "/" || Ascii.eqb c "\")%char.
(** find_first_of and find_last_of with the two parts of the string *)
Fixpoint cutFirst (s : string) : option (string * string) :=
  match s with
  | EmptyString => None
  | String c r => if isSep c then Some ("", r) else match cutFirst r with Some (d, f) => Some (String c d, f) | None => None end
  end.
Fixpoint cutLast (s : string) : option (string * string) :=
  match s with
  | EmptyString => None
  | String c r => match cutLast r with Some (d, f) => Some (String c d, f) | None => if isSep c then Some ("", r) else None end
  end.
(** Models FileSystem.hpp:47-59. *)
Definition splitPathFirst (s : string) : string * string := match cutFirst s with Some p => p | None => ("", s) end.
(** Models FileSystem.hpp:68-74: npos + 1 is 0, thus both parts are the whole path if there is no separator. *)
Definition splitPathLast (s : string) : string * string := match cutLast s with Some p => p | None => (s, s) end.

(** Models FileSystem.hpp:92-113: the directories whose existence is ensured, in this order. *)
Fixpoint createLoop (fuel : nat) (cr dir0 dir1 : string) : res (list string) :=
  if dir0 =? "" then Ok []
  else match fuel with
       | O => Er Efuel
       | S f =>
         let dir0 := if dir0 =? "/" then dir0 else (dir0 ++ "/")%string in
         let cr := (cr ++ dir0)%string in
         let '(d0, d1) := splitPathFirst dir1 in
         r <- createLoop f cr d0 d1 ;; Ok (cr :: r)
       end.
(** Models FileSystem.hpp:81-114. *)
Definition createDir (fuel : nat) (dir : string) : res (list string) :=
  let '(d0, d1) := splitPathFirst (dir ++ "/")%string in
  let d0 := if d0 =? "" then "/" else d0 in
  createLoop fuel "" d0 d1.

Inductive wtype := wNone | wAscii | wBinary.
(** Models WaveField.cpp:74-76. *)
Definition typeOf (t : string) : wtype := if t =? "vtk_ascii" then wAscii else if t =? "vtk_binary" then wBinary else wNone.

(** Models WaveField.cpp:47-52; [all] is the largest value of the sparse type, which prints everything. *)
Definition elPrint (nEls : nat) (spType : nat -> N) (all sp : N) : list nat :=
  filter (fun el => (sp =? all)%N || (N.land (spType el) sp =? sp)%N) (seq 0 nEls).
(** Models WaveField.cpp:57-72. *)
Definition deadLoop (ep : list nat) : res nat :=
  forb 0 (if (List.length ep =? 0)%nat then 0 else last ep 0 + 1) (fun el i =>
    p <- rd ep i ;; if (el =? p)%nat then Ok (S i, (List.length ep <=? S i)%nat) else Ok (i, false)) 0.

Section Writer.
  Context {F D : Type} (fC : D -> F) (fD : D -> F) (nan : F) (nul : nat).
  (** numbers of quantities, fused simulations and vertices per element *)
  Context (nQ nC nV : nat).

  (** one call of the library: name, binary, points, variables (name, pointer), number and vertices of the cells, values *)
  Record call := mkCall { cName : string; cBin : bool; cPts : list F; cVars : list (string * nat); cCells : nat; cConn : list nat; cVals : list F }.

  (** members of Vtk after the first write *)
  Record vtk := mkVtk { coordsVe : list F; connElVe : list nat; dofsB : list F; names : list string; ptrs : list nat }.
  Record wf := mkWf { wfType : wtype; wfStep : nat; wfOut : string; wfRank : nat; wfNVe : nat; wfPrint : list nat; wfVtk : option vtk }.

  (** Models WaveField.cpp:33-94; also gives the directories which are requested. *)
  Definition wf_new (fuel : nat) (ty path : string) (rank nVes nEls : nat) (spType : nat -> N) (all sp : N) : res (wf * list string) :=
    let ep := elPrint nEls spType all sp in
    _ <- deadLoop ep ;;
    '(out, reqs) <- (match typeOf ty with
      | wNone => Ok ("", [])
      | _ => let '(dir, file) := splitPathLast path in
             if (0 <? List.length ep)%nat then
               reqs <- createDir fuel (dir ++ "/" ++ tos rank)%string ;;
               Ok ((dir ++ "/" ++ tos rank ++ "/" ++ file)%string, reqs)
             else Ok ("", [])
      end) ;;
    Ok (mkWf (typeOf ty) 0 out rank nVes ep None, reqs).

  (** Models Vtk.cpp:28-75. *)
  Definition vtk_init (nVe : nat) (ep : list nat) (veCrds : nat -> nat -> D) (elVe : nat -> nat -> nat) : res vtk :=
    let nP := List.length ep in
    nmp <- for_ 0 nC (fun run => for_ 0 nQ (fun q st =>
             n <- wr (fst st) (run * nQ + q) ("crun_" ++ tos run ++ "_var_" ++ tos q)%string ;;
             p <- wr (snd st) (run * nQ + q) (nP * (nQ * run + q)) ;; Ok (n, p))) (repeat "" (nC * nQ), repeat nul (nQ * nC)) ;;
    cs <- for_ 0 nVe (fun ve => for_ 0 3 (fun di a => wr a (ve * 3 + di) (fC (veCrds ve di)))) (repeat nan (nVe * 3)) ;;
    cn <- for_ 0 nP (fun el a => id <- rd ep el ;; for_ 0 nV (fun ve a => wr a (el * nV + ve) (elVe id ve)) a) (repeat nul (nP * nV)) ;;
    Ok (mkVtk cs cn (repeat nan (nP * nQ * nC)) (fst nmp) (snd nmp)).

  (** Models Vtk.cpp:86-121. *)
  Definition vtk_write (out : string) (bin : bool) (nVe : nat) (ep : list nat) (veCrds : nat -> nat -> D) (elVe : nat -> nat -> nat)
      (dofs : nat -> nat -> nat -> nat -> D) (v : option vtk) : res (call * vtk) :=
    v <- (match v with Some v => Ok v | None => vtk_init nVe ep veCrds elVe end) ;;
    b <- for_ 0 (List.length ep) (fun el a => id <- rd ep el ;;
           for_ 0 nQ (fun q => for_ 0 nC (fun cr a => wr a (List.length ep * (nQ * cr + q) + el) (fD (dofs id q 0 cr)))) a) (dofsB v) ;;
    let v := mkVtk (coordsVe v) (connElVe v) b (names v) (ptrs v) in
    Ok (mkCall out bin (coordsVe v) (combine (names v) (ptrs v)) (List.length ep) (connElVe v) b, v).

  (** Models WaveField.cpp:96-114. *)
  Definition wf_write (veCrds : nat -> nat -> D) (elVe : nat -> nat -> nat) (dofs : nat -> nat -> nat -> nat -> D) (w : wf) : res (option call * wf) :=
    let out := (wfOut w ++ "_" ++ tos (wfRank w) ++ "_" ++ tos (wfStep w) ++ ".vtk")%string in
    '(c, v) <- (if (0 <? List.length (wfPrint w))%nat then
       '(c, v) <- vtk_write out (match wfType w with wBinary => true | _ => false end) (wfNVe w) (wfPrint w) veCrds elVe dofs (wfVtk w) ;; Ok (Some c, Some v)
       else Ok (None, wfVtk w)) ;;
    Ok (c, mkWf (wfType w) (S (wfStep w)) (wfOut w) (wfRank w) (wfNVe w) (wfPrint w) v).

  (** the writes of a run, one per list of DOFs *)
  Fixpoint wf_writes (veCrds : nat -> nat -> D) (elVe : nat -> nat -> nat) (dofss : list (nat -> nat -> nat -> nat -> D)) (w : wf) : res (list (option call)) :=
    match dofss with
    | [] => Ok []
    | d :: ds => '(c, w) <- wf_write veCrds elVe d w ;; r <- wf_writes veCrds elVe ds w ;; Ok (c :: r)
    end.
End Writer.
