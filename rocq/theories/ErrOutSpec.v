(** Reading error norms. *)
From Coq Require Import String List Arith.
From Verif Require Import ErrOut.
Import ListNotations.

(** [a] norms of [b] quantities and [c] runs *)
Definition shape3 {V} (a b c : nat) (e : list (list (list V))) : Prop := length e = a /\ forall x, In x e -> length x = b /\ forall y, In y x -> length y = c.
(** norm [i] of quantity [j] and run [k] *)
Definition normAt {V} (e : list (list (list V))) (i j k : nat) (v : V) : Prop := exists x y, nth_error e i = Some x /\ nth_error x j = Some y /\ nth_error y k = Some v.

(** name of an element *)
Definition nameOf {V} (x : xml V) : string := match x with El _ n _ _ => n end.
(** children with a name *)
Definition kidsOf {V} (n : string) (x : xml V) : list (xml V) := match x with El _ _ _ k => filter (fun y => String.eqb (nameOf y) n) k end.
(** the text of the [k]-th element "cfr" in the [j]-th element "q" of the first element with the norm's name in the element "error_norms" *)
Definition readNorm {V} (doc : xml V) (n : string) (j k : nat) : option V :=
  if String.eqb (nameOf doc) "error_norms" then
    match nth_error (kidsOf n doc) 0 with None => None | Some a =>
    match nth_error (kidsOf "q" a) j with None => None | Some b =>
    match nth_error (kidsOf "cfr" b) k with None => None | Some (El _ _ t _) => t end end end
  else None.
