(** Output of error norms: src/io/ErrorNorms.h, src/io/ErrorNorms.cpp.

    XML documents are trees of elements with a name, a text and children (pugixml); a failing save of the file, which the code logs, is not modelled. Children are complete when they are appended, the code appends first. Numbers are not printed. *)
From Verif Require Import Util.
From Coq Require Import String List Arith Bool.
Open Scope nat_scope.

(** ErrorNorms.h 53-58 *)
Inductive outType := Onone | Osout | Ofile | Oboth.
(** ErrorNorms.h 80-85: the type by the configuration *)
Definition typeOf (s : string) : outType :=
  if String.eqb s "sout" then Osout else if String.eqb s "file" then Ofile else if String.eqb s "sout_file" then Oboth else Onone.
(** ErrorNorms.h 92 *)
Definition outEnabled (t : outType) : bool := negb (match t with Onone => true | _ => false end).

Section ErrOut.
  Variable (V : Type) (nQ nC : nat).

  (** elements of XML documents *)
  Inductive xml := El (name : string) (text : option V) (kids : list xml).
  (** pugi's append_child *)
  Definition appendKid (nd c : xml) : xml := match nd with El n t k => El n t (k ++ [c]) end.
  (** a printed line: name of the norm, quantity, run and value *)
  Definition line : Type := (string * nat * nat * V)%type.

  (** i_errorNorms[norm][q][cfr] *)
  Definition rdE (e : list (list (list V))) (norm q c : nat) : res V := a <- rd e norm ;; b <- rd a q ;; rd b c.
  (** ErrorNorms.cpp 34-45: norm's names in the output *)
  Definition label (norm : nat) : string := match norm with 0 => "L1" | 1 => "L2" | _ => "Linf" end.
  (** ErrorNorms.cpp 29-49 (print) without the first line; logging.h 47: [root] is the first thread of the first rank, others do not print *)
  Definition print (root : bool) (e : list (list (list V))) : res (list line) :=
    for_ 0 3 (fun norm => for_ 0 nQ (fun q => for_ 0 nC (fun c o =>
      v <- (if norm =? 0 then rdE e 0 q c else if norm =? 1 then rdE e 1 q c else rdE e 2 q c) ;;
      Ok (if root then o ++ [(label norm, q, c, v)] else o)))) [].

  (** ErrorNorms.cpp 62-67: norm's names in the file *)
  Definition tag (norm : nat) : string := match norm with 0 => "l1" | 1 => "l2" | _ => "linf" end.
  (** ErrorNorms.cpp 51-87 (writeXml): the document which is saved; nothing on other ranks than the first *)
  Definition writeXml (rank : nat) (e : list (list (list V))) : res (option xml) :=
    if rank =? 0 then
      doc <- for_ 0 3 (fun norm nd =>
        nNd <- for_ 0 nQ (fun q nNd =>
          qNd <- for_ 0 nC (fun c qNd => v <- rdE e norm q c ;; Ok (appendKid qNd (El "cfr" (Some v) []))) (El "q" None []) ;;
          Ok (appendKid nNd qNd)) (El (tag norm) None []) ;;
        Ok (appendKid nd nNd)) (El "error_norms" None []) ;;
      Ok (Some doc)
    else Ok None.

  (** ErrorNorms.cpp 89-92 (write): printed lines and saved document *)
  Definition write (t : outType) (rank : nat) (root : bool) (e : list (list (list V))) : res (list line * option xml) :=
    o <- (match t with Osout | Oboth => print root e | _ => Ok [] end) ;;
    x <- (match t with Ofile | Oboth => writeXml rank e | _ => Ok None end) ;;
    Ok (o, x).
End ErrOut.
