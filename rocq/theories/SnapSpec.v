(** Specification of the files of the wave field: what a reader of a file finds, and paths. *)
From Verif Require Import Util Snap.
From Coq Require Import String Ascii.
Open Scope string_scope.
Open Scope list_scope.

(** value of the variable of a name in a cell *)
Definition readVar {F} (c : @call F) (name : string) (cell : nat) : option F :=
  match find (fun v => fst v =? name) (cVars c) with Some v => if (cell <? cCells c)%nat then nth_error (cVals c) (snd v + cell) else None | None => None end.
(** the ids in ascending order which satisfy a predicate *)
Fixpoint ascending (l : list nat) : Prop := match l with a :: (b :: _) as r => a < b /\ ascending r | _ => True end.
Definition exactly (P : nat -> Prop) (l : list nat) : Prop := ascending l /\ forall i, In i l <-> P i.
(** all sparse types of [sp] are set in [t] *)
Definition hasTypes (sp t : N) : Prop := forall b, N.testbit sp b = true -> N.testbit t b = true.

(** components of a path: not empty, without separators *)
Definition component (s : string) : Prop := s <> "" /\ forall c, In c (list_ascii_of_string s) -> c <> "/"%char /\ c <> "\"%char.
(** the path of the components: every component is followed by a slash *)
Fixpoint path (cs : list string) : string := match cs with [] => "" | c :: r => (c ++ "/" ++ path r)%string end.
(** the path with its directories: the root of an absolute path, and the paths of the first components *)
Definition root (absolute : bool) : string := if absolute then "/" else "".
Definition parents (absolute : bool) (cs : list string) : list string :=
  (if absolute then ["/"] else []) ++ map (fun k => (root absolute ++ path (firstn k cs))%string) (seq 1 (List.length cs)).
